-Q theories Verif
theories/Num.v
theories/NumR.v
theories/NumF.v
theories/Tools.v
theories/Lin.v
theories/KernelProofs.v
theories/Types.v
theories/Remesh.v
theories/Objects.v
theories/Transfer.v
theories/Rma.v
theories/Plastic.v
theories/Pbc.v
theories/Step.v
theories/Counter.v
theories/Save.v
theories/Sampling.v
theories/Output.v
theories/Spec.v
theories/LinProofs.v
theories/ResProofs.v
theories/GridProofs.v
theories/StencilProofs.v
theories/RemeshProofs.v
theories/IndexProofs.v
theories/Examples.v
theories/GradProofs.v
theories/RemeshExamples.v
theories/AccumProofs.v
theories/P2GProofs.v
theories/ConsProofs.v
theories/MuslProofs.v
theories/ExamplesF.v
theories/SpecObj.v
theories/SpecStep.v
theories/ObjectProofs.v
theories/NormalProofs.v
theories/PlateProofs.v
theories/SpecTime.v
theories/TimeProofs.v
theories/FuelProofs.v
theories/PloopProofs.v
theories/PbcProofs.v
theories/StepProofs.v
theories/SpecMech.v
theories/StepMech.v
theories/StepField.v
theories/SpecPbc.v
theories/GuardProofs.v
theories/ExStep.v
theories/ExMech.v
theories/SpecPlastic.v
theories/SvdExist.v
theories/PlasticProofs.v
theories/RmaProofs.v
theories/PlasticModels.v
theories/PlasticGlue.v
theories/SpecMaterial.v
theories/SpecMpm.v
theories/MaterialStep.v
theories/StressProofs.v
theories/PropGrid.v
theories/PropTransfer.v
theories/PropBoundary.v
theories/PropTime.v
theories/ExSimF.v
theories/PropStep.v
theories/PropPbc.v
theories/PropPlastic.v
theories/PropRma.v
theories/PropMaterial.v
theories/PropStress.v
theories/PropDefined.v
theories/SaveProofs.v
theories/PropSave.v
theories/PropSample.v
theories/OutputProofs.v
theories/MpmProofs.v
theories/PropOutput.v
theories/PropVdb.v
theories/PropMpm.v
theories/SpecFriction.v
theories/FrictionProofs.v
theories/PropFriction.v
theories/PropMccF.v
theories/ExPlastic.v
theories/PropGridHist.v
theories/SpecRest.v
theories/RestProofs.v
theories/PropRest.v
theories/PropError.v
theories/SpecNewton.v
theories/NewtonProofs.v
theories/CoupledProofs.v
theories/PathProofs.v
theories/PropNewton.v
theories/PropModulusF.v
theories/SpecBalance.v
theories/BalanceProofs.v
theories/PropBalance.v
theories/SpecEnergy.v
theories/PropEnergy.v
theories/Main.v
theories/SpecStrength.v
theories/PropStrength.v
theories/SpecWave.v
theories/PropMain.v
theories/ExMainF.v
theories/SpecVisc.v
theories/PropVisc.v
theories/PropFiles.v
theories/Piola.v
theories/SpecHyper.v
theories/HyperProofs.v
theories/PropHyper.v
theories/SpecBarrier.v
theories/BarrierProofs.v
theories/PropBarrier.v
theories/SpecOrder.v
theories/OrderProofs.v
theories/OrderSim.v
theories/PropOrder.v
theories/SpecShift.v
theories/ShiftProofs.v
theories/PropShift.v
theories/SpecCentre.v
theories/CentreProofs.v
theories/PropCentre.v
theories/SpecInside.v
theories/InsideProofs.v
theories/PropInside.v
theories/SpecGalilei.v
theories/TwinProofs.v
theories/GalileiProofs.v
theories/PropGalilei.v
theories/SpecLocal.v
theories/LocalProofs.v
theories/ExHalf.v
theories/PropLocal.v
theories/SpecRing.v
theories/RingProofs.v
theories/PropRing.v
theories/RingBalance.v
theories/RingMomentum.v
theories/PropRingMomentum.v
theories/Threads.v
theories/SpecThreads.v
theories/ThreadProofs.v
theories/ThreadLoops.v
theories/ThreadParts.v
theories/ThreadNodes.v
theories/PropThreads.v
theories/PropScene.v
theories/PropKernel2.v
theories/SpecF.v
theories/FloatBase.v
theories/ClockFProofs.v
theories/SpecGridF.v
theories/FloatGrid.v
theories/FloatKernel.v
theories/FloatCont.v
theories/PropGridF.v
theories/PropClockF.v
theories/PropGridLater.v
theories/FloatPbc.v
theories/PropPbcF.v
theories/FloatSum.v
theories/SpecMassF.v
theories/PropMassF.v
theories/FloatVel.v
theories/PropVelF.v
theories/SpecBackF.v
theories/FloatGather.v
theories/PropBackF.v
theories/SpecForceF.v
theories/FloatForce.v
theories/PropEulerF.v
theories/PropGhost1D.v
theories/PropThreadsExit.v
theories/PropBackPbcF.v
theories/SpecPlateF.v
theories/PropPlateF.v
theories/PropPlateMoveF.v
theories/PropPlateRestF.v
