# Formal model of larsblatny/matter - design

The plan per property was written before the proofs. The trusted base, the table of what is
modelled and the findings are kept current as the model grows.

## Approach

* Source modelled: the C++ in /repo/src (2D and 3D builds, spline degree 1, 2, 3).
* Numbers: the model is written once over a type class `Num` (the operations of `T`). It is
  instantiated with Coq's reals (`NumR`), where the mathematical properties are proved, and with
  IEEE-754 binary64 (`NumF`, Flocq's executable floats), used for theorems and refutations that are
  about floating point. Theorems that mention neither hold for every instance: order of frames (C26),
  guards and errors (C28), ghosts (C30), C46_defined, C47 counts, crashes (C50), arrays (C51), VDB
  objects (C58). ExSimF.v evaluates whole simulations in binary64 that meet their hypotheses.
* Dimension: a second class `Geo` gives vectors and matrices; `Geo2` and `Geo3` are the two builds.
  Theorems say `two_or_three G`, that is both.
* Undefined behaviour (out-of-range vector access, conversion of an out-of-range double to an
  integer type, dereferencing end(), reads of uninitialised variables) is a distinct outcome `UB`
  of the model, never a default value. A loop that runs out of fuel is a third outcome `NoFuel`.
* OpenMP loops are modelled by explicit schedules over which theorems quantify.
* External code (Eigen's SVD, libm, Poisson sampler, OpenVDB, tinyply) appears as universally
  quantified parameters with stated contracts, never as axioms.
* A property that the code violates gets a `..._refuted` theorem with a concrete witness and, where
  possible, a `..._partial` theorem under the exact extra condition.

## Trusted base

* Coq 8.16.1's kernel, and the reading of the C++ that the comments in the model files record.
* Axioms. `Print Assumptions` is printed after every theorem. It lists only axioms of the standard
  library: `ClassicalDedekindReals.sig_forall_dec`, `ClassicalDedekindReals.sig_not_dec`,
  `FunctionalExtensionality.functional_extensionality_dep` (the construction of the reals) and
  `Classical_Prop.classic` (through Coquelicot and Flocq). The lists below say which theorem uses which;
  theorems without reals use none.
* Over the reals the model says what the program computes without rounding. It does not bound
  rounding errors. Where rounding breaks a property there is a binary64 refutation.
* Eigen's JacobiSVD: theorems about stress assume its contract (`SVD` in SpecPlastic.v: U, V
  orthogonal, F = U S V^T). That a function with this contract exists is proved in SvdExist.v.
* `std::exp`, `log`, `pow`, `tanh`, ...: the real functions of the standard library (`NumR.v`).
* Memory model: in the main model each iteration of a parallel loop is executed as a block; loops with
  per-thread buffers and critical sections are modelled with their buffers and merge order. C83
  proves for each loop that every interleaving of single loads and stores gives this result, in a
  second model (Threads.v) with sequentially consistent memory; as the loops are shown free of data
  races, that is what OpenMP guarantees. The shared counter of G2P races; it is modelled at the level
  of loads and stores (Counter.v, Threads.v).

### Output of Print Assumptions, theorem by theorem

* `sig_forall_dec`, `functional_extensionality_dep`: C15_special_cases, C87_ghost_refuted,
  C87_right_end_refuted, C88_schedules, C90_next_step.
* `functional_extensionality_dep`: C83_g2p_partial, C83_deformation, C83_velocity, C83_position, C83_average,
  C83_p2g, C83_musl, C83_counter_race, C83_exit_race.
* No axioms ("Closed under the global context"): C07_index_bijection_2D, C07_index_bijection_3D,
  C10_binary64_refuted, C16_massless_node_refuted, C26_frames_in_order, C26_grid_files,
  C27_binary64_clock_stalls_refuted, C28_guards, C28_no_frame_after_error, C30_ghosts_leave_no_trace,
  C43_mcc_binary64_refuted, C46_defined_partial, C46_mccmui_nohard_refuted, C47_musl_count_exact,
  C47_usl_count_bounds, C47_usl_one_thread_exact, C47_usl_count_refuted, C50_earlier_frames_complete_partial,
  C51_step_keeps_arrays, C51_simulation_keeps_arrays, C58_not_initialised, C58_failed_setup,
  C58_saving_only_observes, C65_flow_modulus_refuted, C83_pbc_race, C87_ground_refuted.
* `sig_forall_dec`, `sig_not_dec`, `classic`, `functional_extensionality_dep`: C01_kernel_partition,
  C01_partition_of_unity, C01_kernel_is_bspline, C02_kernel_derivative, C02_kernel_second_derivative,
  C02_gradient_weights, C02_linear_kernel_at_node, C03_inertia, C03_constants, C03_linear_has_no_constant,
  C04_initial_grid_covers, C04_initial_grid_exists, C04_first_step_covers, C05_refuted,
  C05_later_grids_cover_partial, C05_later_steps_cover_partial, C06_grid_never_drifts,
  C06_simulation_never_drifts, C07_saved_rows, C08_mass_conservation, C09_momentum_conservation,
  C09_check_accepts, C10_schedule_independent, C11_velocity_average, C12_free_fall, C12_uniform_motion,
  C13_affine_fields, C14_momentum_balance, C15_velocity_blend, C16_friction_average, C17_no_slip_terrain,
  C17_no_slip_plate, C18_terrain, C18_plate, C19_coulomb_terrain, C19_coulomb_plate_2D, C20_refuted,
  C20_coulomb_plate_3D_partial, C21_terrain, C21_plate, C21_sequence, C21_negative_friction_refuted,
  C22_outside_untouched, C22_last_object_wins, C22_last_plate_wins, C22_earlier_contact_refuted, C23_inside,
  C23_unit_normals_partial, C23_holds_in_2D, C23_ground_3D_refuted, C24_plate_motion,
  C24_collision_velocity_partial, C24_first_step_refuted, C25_time_step_limits, C25_slow_particles_ignored,
  C26_frames_complete_ordered_on_time, C26_frames_until_abort, C27_simulations_terminate,
  C28_error_is_detected, C29_gravity_ramp, C29_second_simulation_refuted, C31_wrap_keeps_particles,
  C32_images_partial, C32_right_end_refuted, C32_narrow_domain_refuted, C32_friction_refuted,
  C33_periodic_grid_covers, C33_below_zero_undefined, C33_periodic_grid_exists, C33_simulation_grid_covers,
  C34_elastic_states, C34_yielding_states, C35_von_mises, C36_drucker_prager,
  C37_softening_drucker_prager_partial, C37_softened_surface_refuted, C38_viscous_von_mises,
  C38_viscous_drucker_prager, C39_explicit, C39_implicit_exponential, C39_implicit_onevar,
  C39_cam_clay_update, C40_limited_search, C41_dp_mui, C41_dp_mui_tip, C41_mcc_mui,
  C42_correction_keeps_volume, C42_step_volume, C42_history_volume, C43_plastic_strain_grows_partial,
  C44_stored_stress_hencky, C44_stored_stress_neo_hookean, C44_symmetric, C44_saved_pressure_and_shear,
  C44_step_stress, C44_torn_refuted, C45_update_objective, C45_hencky_objective, C45_neo_hookean_objective,
  C45_rotation_is_stress_free, C45_hydrostatic, C46_material_defined, C46_mcc_nohard_mibf_refuted,
  C47_rate_current_partial, C47_what_is_counted, C47_usl_stale_refuted, C48_regular_sampling,
  C49_random_sampling, C50_after_a_normal_end, C50_named_frame_lost_refuted, C52_averages, C52_uniform,
  C53_step_is_safe, C53_first_step_is_safe, C53_periodic_step_is_safe, C54_particle_tables, C55_grid_tables,
  C56_inside, C56_contact, C56_no_gradient, C57_regular, C57_random, C59_grid_update, C59_musl_grid_update,
  C60_particle_update, C61_contact_without_musl, C61_musl_refuted, C62_shear_rate_partial, C62_tip,
  C62_refuted, C63_viscous_drucker_prager, C63_cam_clay, C63_mcc_mui, C63_dp_mui_viscosity,
  C63_simulation_partial, C63_negative_friction_refuted, C64_rest_is_kept, C64_rest_completes,
  C65_explicit_laws, C65_path_is_flow, C65_onevar, C65_implicit_exponential_partial,
  C65_implicit_sinh_partial, C65_sinh_derivative_refuted, C65_three_variable_partial,
  C65_three_variable_slope_refuted, C66_spin, C66_angular_momentum, C66_angular_momentum_run, C66_conserved,
  C67_energy_balance, C67_no_forces, C67_energy_run, C68_energy, C68_dissipation_partial,
  C68_dissipation_refuted, C69_elastic_limit_partial, C69_elastic_limit_refuted, C69_shipped_program,
  C69_rotating_density_refuted, C70_update_partial, C70_simulation_partial, C70_isochoric_shear_refuted,
  C70_cohesive_mui_refuted, C71_collapse_program, C71_collapse_terminates, C71_collapse_first_step,
  C71_collapse_scene, C71_rotating_program, C71_rotating_scene, C71_shipped_settings, C72_von_mises,
  C72_drucker_prager, C72_cam_clay, C72_cam_clay_linear_guard, C72_cam_clay_linear_runs, C73_stress,
  C73_energy_exists, C73_piola_kirchhoff, C73_piola, C73_force, C73_step, C74_step, C74_run, C75_step,
  C75_simulation, C75_schedule, C76_step, C76_simulation, C76_ground, C77_step, C77_run, C77_parabola,
  C78_step, C78_run, C78_stress_free, C78_time_step_limits_refuted, C79_step, C79_time_step, C80_step,
  C80_separate_bodies, C81_step, C81_uniform_motion, C81_musl_refuted, C82_momentum, C82_run,
  C82_cells_refuted, C83_euler, C83_counter_refuted, C83_pbc_refuted, C84_step_size, C84_loop_ends,
  C84_frames, C85_initial_grid_covers, C85_initial_grid_exists, C85_weights, C85_kernel,
  C86_later_grids_cover_partial, C86_later_grids_exist_partial, C86_weights_partial, C86_within_first_range,
  C86_refuted, C87_wrap, C87_images, C87_periodic_grid_covers_partial, C87_periodic_grid_exists,
  C87_weights_partial, C88_first_grid, C88_later_grids_partial, C88_periodic_partial, C89_first_grid,
  C89_later_grids_partial, C89_periodic_partial, C90_first_grid, C90_later_grids_partial,
  C90_periodic_partial, C91_first_grid, C91_later_grids_partial, C91_periodic_partial, C91_whole_step_partial,
  C91_resting_plates_partial, C91_plates_later_partial, C91_plates_periodic_partial,
  C91_plates_whole_step_partial, C92_column_ghosts, C93_resting_plates_partial, C93_friction_3D_refuted,
  C94_one_moving_plate, C94_last_plate, C95_plate_rests_partial, C95_zero_factor_refuted.

## What is modelled

| Source | Model | Remarks |
|---|---|---|
| tools.hpp | Tools.v | all kernels, arange; `debug` output not modelled |
| data_structures.hpp | Types.v, Sampling.v | particle and grid arrays |
| simulation/simulation.hpp | Types.v, Examples.v, Piola.v | members, defaults, derived constants, ind(), the two Piola stress helpers |
| simulation/simulation.cpp | Step.v, Save.v, Output.v | simulate, advanceStep, initialize, checks; timers and console output not modelled |
| simulation/update_dt.cpp | Step.v | complete |
| simulation/remesh.cpp | Remesh.v | remeshFixed, remeshFixedInit, remeshFixedCont, resizeGrid |
| simulation/p2g.cpp, g2p.cpp, musl.cpp, deformation_update.cpp, position_update.cpp, explicit_euler_update.cpp | Transfer.v | complete; also Threads.v, access by access |
| simulation/boundary_collision.cpp, objects/*.hpp | Objects.v, Output.v | all terrains and plates; ObjectVdb over an arbitrary level set |
| simulation/pbc.cpp | Pbc.v | complete; the data race on reallocation is in Threads.v |
| simulation/plasticity.cpp | Plastic.v | all models, both elastic laws |
| plasticity_helpers/*.hpp | Rma.v | all return mappings and line searches |
| simulation/save_data.cpp | Save.v, Output.v | columns, values, averages, file operations; the bytes tinyply writes are an arbitrary function of the state |
| sampling/*.hpp | Sampling.v, Output.v | the Poisson sampler is an arbitrary list; OpenVDB an arbitrary level set |
| mpm.cpp, examples/collapse.cpp, examples/cube_rotating.cpp | Main.v | settings, particles and plates; printed energies not modelled |
| tests/, deps/, timer.hpp | - | not modelled |

Spec files (`Spec*.v`) contain the words used in the statements and no proofs about the model.
`Prop*.v` contain the theorems, `Ex*.v` and the `Example`s beside the theorems the concrete cases.

## Plan per property

* **C01 Interpolation weights form a partition of unity** - Gallina N/dNdu for the 3 degrees over an abstract number class; stencil as list of nodes; over R by case analysis on floor and nra/lra; product weights by Fubini on list sums.
* **C02 Weight gradients are the derivative of the weights and reproduce linear fields** - `PropKernel2` adds the second derivatives; derivability proved with Coquelicot is_derive piecewise and at knots (one-sided pieces glued by epsilon-delta); stencil sums by case analysis.
* **C03 APIC inertia constant matches the kernel** - second-moment identity over R by case analysis; counter-statement for degree 1.
* **C04 The initial adaptive grid covers every particle's stencil** - remeshFixedInit modelled with arange as fuel recursion (fuel proved sufficient); coverage by floor arithmetic.
* **C05 Every later adaptive grid covers every particle's stencil** - remeshFixedCont modelled literally; refuted by a witness; exact sufficient condition proved as _partial.
* **C06 The background grid never drifts** - invariant over remesh sequences: low_x - low_x_init is an integer multiple of dx; then over all steps of a simulation (PropGridHist.v, also for C04, C05 and C33).
* **C07 Node numbering is a bijection onto the grid arrays** - Z arithmetic on mixed radix; list of saved rows compared with nth.
* **C08 Particle-to-grid transfer conserves mass** - P2G as scatter of weights over a schedule; sum exchange.
* **C09 Particle-to-grid transfer conserves momentum** - same scatter lemma with vector values.
* **C10 Transfer results do not depend on the thread schedule** - schedule = partition of particle list into threads plus merge order; commutative-monoid fold lemma over R; binary64 witness by vm_compute.
* **C11 Grid velocities are averages** - weighted average lemma.
* **C12 Uniform motion and free fall are exact** - composition of P2G, Euler, G2P, position update on a uniform field.
* **C13 APIC transfer preserves affine velocity fields** - composition of P2G and G2P on affine fields using C01-C03.
* **C14 Momentum balance of a full time step** - internal force sum vanishes by gradient sum zero; momentum sum exchange.
* **C15 flip_ratio selects the documented velocity blend** - direct on model of MUSL()/positionUpdate() and of the whole step.
* **C16 Material-induced friction on the grid is an average** - weighted average lemma; 0/0 refuted on binary64 model.
* **C17 No-slip boundaries impose the object's velocity** - fold over object list; direct.
* **C18 Slip boundaries prevent penetration** - dot product algebra, unit normal.
* **C19 Coulomb friction law at terrain objects and 2D plates** - v_tang scaling algebra, sqrt.
* **C20 Coulomb friction law at 3D plates** - refuted by concrete vector; direction-preserving partial when one tangential component is zero.
* **C21 Boundaries never add kinetic energy** - per-object energy inequality; fold over list.
* **C22 Nodes away from objects are untouched, and the last object wins** - induction on object list.
* **C23 Terrain normals are unit outward normals of the level set** - derivatives of the surfaces with Coquelicot, normalisation lemma; uninitialised third component as UB outcome.
* **C24 Moving plates follow their prescribed velocity** - induction on step sequences; first step velocity refuted.
* **C25 Time step limits** - min/max algebra on updateDt.
* **C26 Output frames are complete, ordered and on time** - loop invariant over the event trace of simulate; physics abstract (any max speed sequence).
* **C27 Simulations terminate** - decreasing measure over R; refuted on binary64 (time absorbs dt).
* **C28 Guard conditions of simulate** - case analysis on simulate model; `C28_error_is_detected`: a step raises the error flag exactly when one of its stress updates reports an error.
* **C29 Gravity ramp** - algebra.
* **C30 Periodic ghost particles are removed without trace** - list append/firstn for any interleaving of pushes.
* **C31 Periodic wrap keeps particles in the domain** - algebra.
* **C32 Every particle near a periodic boundary has its periodic image** - refuted at x=Lx, narrow domains, and muI; partial for Lx>=8dx and x<Lx.
* **C33 The periodic grid covers all particles and ghosts** - floor arithmetic on remeshFixed; y below refuted.
* **C34 Elastic states are left alone** - per-model case analysis.
* **C35 Von Mises return mapping** - vector norm algebra on principal Hencky strain; SVD as a certified oracle.
* **C36 Drucker-Prager return mapping** - same.
* **C37 Softening Drucker-Prager return mapping** - same.
* **C38 Viscous return mappings solve the stated flow rule** - closed forms by field; Newton loop by induction on remaining iterations.
* **C39 Cam-Clay return mapping ends on the yield surface** - post-loop clamp algebra, loop outcome universally quantified by induction.
* **C40 Line search of the implicit Cam-Clay solvers** - induction on tries.
* **C41 mu(I) models: friction within bounds and consistent with stress** - quadratic formula algebra.
* **C42 Volume bookkeeping** - det(exp) identity on principal strains, induction over histories.
* **C43 Plastic shear strain never decreases** - per-model sign analysis; MCC refuted.
* **C44 Stored stress is the elastic stress of the stored deformation** - per-model; VMVisc cap refuted.
* **C45 Elasticity is objective** - SVD oracle covariance; uniqueness of the spectral function for the Hencky stress.
* **C46 No undefined values enter the plastic update** - uninitialised reads are an explicit UB outcome of the plasticity model.
* **C47 Reported plastic activity is current** - interleaving model of the shared counter; stale delta_gamma refuted by witness.
* **C48 Regular sampling fills the box** - nested loops model; floor arithmetic.
* **C49 Random sampling assigns the whole box volume** - Poisson sampler as arbitrary list.
* **C50 last_written.txt is trustworthy after a crash** - file system with buffered streams and crash points; refuted.
* **C51 Particle arrays stay consistent** - length invariants through the step.
* **C52 Averages are volume averages** - sums algebra.
* **C53 A time step never leaves its arrays** - composition of the definedness lemmas of every phase.
* **C54 Saved particle files contain the documented columns** - columns as a list of name/value lists, the parallel stress loop as a schedule; spec `documented_row` written from the README.
* **C55 Saved grid files contain every node once, with its own position** - invariant: the mesh of the state is the product of its axes and the node arrays have its length.
* **C56 VDB level sets act as obstacles** - the level set is an arbitrary function with an arbitrary gradient (OpenVDB itself is not modelled); reuse of C18.
* **C57 Sampling a VDB object** - translation of the box sampler of C48/C49 to the corner of the bounding box.
* **C58 initialize() guards the simulation and saving only observes it** - fold over the calls of initialize; the step does not read save_sim.
* **C59 A time step obeys the MPM grid equations** - the stencil sums of the model are sums over all nodes and all particles of the textbook weights (`SpecMpm.v`: B-spline by truncated powers, weight gradient by `Derive`); scatter and gather as exchanges of sums.
* **C60 A time step obeys the MPM particle equations** - same.
* **C61 Contact conditions hold on the grid at the end of a step** - C59 with C22 without MUSL; refuted with MUSL, whose second projection is not corrected.
* **C62 The reported plastic shear rate is the rate of the plastic shear strain** - case analysis of every model; refuted at the tip of the mu(I) Drucker-Prager model.
* **C63 The reported friction coefficient and viscosity belong to the stress** - value of each model in terms of the returned stress; invariant of the simulation for the range (explicit hardening only); refuted under tension for viscous Drucker-Prager with cohesion.
* **C64 An undisturbed body stays undisturbed** - invariant of the whole simulation (`resting`, SpecRest.v): zero stress gives zero force, zero velocity fields give zero strain, the stress-free state is inside every elastic domain; progress from the coverage of the unchanged grid.
* **C65 Cam-Clay returns follow the associated flow rule** (MCC, MCCVisc, MCCMui) - the solver loops are Newton's method on the flow equations (SpecNewton.v: `flow_equations`, `newton_sequence`; for implicit hardening the one-dimensional path of the flow rule, `newton_path`), shown by computing the derivatives of the specification with Coquelicot and comparing with the code's formulas. The one-variable solver without hardening: convexity of the yield function along the path.
* **C66 Affine transfers conserve angular momentum** - from the laws of a step (C59, C60) and the zeroth, first and second moments of the spline weights over the whole grid (BalanceProofs.v). The specification is SpecBalance.v; C66_spin justifies its spin term. Symmetry of the stress is an invariant for the Hencky models whatever the SVD returns; the single-step theorem takes any symmetric stress.
* **C67 Transfers and contact never create kinetic energy** - Jensen's inequality at every node (particles to grid), Bessel's inequality for the weighted affine fit at every particle (grid to particles), C21 for contact, and the work identity m/2 |v'|^2 - m/2 |v|^2 = work of the force. FLIP blends (flip_ratio in [-1,0) or (0,1]) are outside the claim: their velocity increments are not a projection.
* **C68 Plastic flow never increases the elastic energy** - from the returned pressure and shear stress of C35-C38 and C41; SpecEnergy.v gives the energy and the condition by model, C68_energy shows that the energy is Hencky's. Refuted for mu(I) with cohesion; just above the tip of DP and with cohesion and volume correction the claim is not made (the return there goes past the trial pressure). Cam-Clay is left out.
* **C69 The time step respects the speed of elastic waves** - SpecWave.v gives density, modulus and wave speed. C69_statement is refuted by the first step of the shipped collapse program (15% too long, C69_shipped_program); C69_rotating_density_refuted: cube_rotating sets the density after sampling. C69_elastic_limit_partial: the bound with the ratio of the two wave speeds.
* **C70 Stored stress within the strength of the material** - from C35-C38 and C41 per update, then an invariant over runs. C70_statement (no exception) is refuted at the tip of the cone; the partial theorems name the exceptional trial pressures (SpecStrength.special). Cam-Clay and DPSoft strengths depend on history and are covered by C39, C40, C42.
* **C71 The shipped programs do what they say** - Main.v models mpm.cpp and two examples for an arbitrary sample set; the theorems put C26, C28, C51, C53 and C70 together for these settings; PropScene.v says what is in the scene (initial particles, gravity, ground). ExMainF.v evaluates the collapse in binary64.
* **C72 Viscous returns are Newton's method for the viscous flow rule** - the loops of VMVisc, DPVisc and MCCVisc are related to `newton_iterates` of SpecVisc.v, whose slope is Coquelicot's `Derive` of the flow residual; the code's derivative formulas are proved equal to it. The start value, tolerance, iteration limit, replacement of small slopes and of negative iterates are part of the statement. Linear exponents are solved in closed form (C38).
* **C73 Stress and nodal forces derive from an elastic energy** - SpecHyper.v states the two strain energies (Hencky through any singular value decomposition, Neo-Hookean in closed form) and the energy of the body as a function of one node's displacement. The derivative of the Hencky energy is proved without differentiating eigenvectors: Klein's trace inequality turns the scalar second order estimate of ln^2 into one for F F^T, so repeated principal stretches need no separate case. The Piola helpers (Piola.v; unused by the program itself) are shown to be the gradient, and C59's nodal force minus the gradient.
* **C74 Particles do not sink through resting walls or the ground** - SpecBarrier.v states the depth behind a flat obstacle and the scene (plates at rest with non-negative friction, level ground objects; the other obstacles of the code, whose normals are oblique, can turn a velocity into another obstacle and are excluded). BarrierProofs.v shows that every collision only shrinks each velocity component towards zero (also the 3D plate friction whose second component is computed from the overwritten first one, C20), so a node neither crosses the surface nor, behind it, moves deeper; partition of unity, linear reproduction and the support of the kernel turn this into a bound for the particle, and induction over the steps into C74_run. A plate with ends must be wide enough for the nodes that carry mass (`wide`), which is stated for the velocities before contact and therefore only without periodic boundaries; the ground and front/back plates have no ends and need nothing.
* **C75 A whole simulation does not depend on the thread schedule or the order of the particles** - SpecOrder.v defines what it means to list the particles in another order (`reorder_state`, `reorder_output`) and which grids a simulation uses (`grids_fit`, for 32-bit node numbers). OrderProofs.v: every loop of a step either treats each particle or node on its own, or adds up contributions, or takes a maximum or minimum; each of these commutes with a permutation of the particles and with any schedule (`step_any`). OrderSim.v: induction over the loop of `simulate`, including the saved files. Theorems C75_step, C75_simulation and C75_schedule (no reordering, only another schedule). Over the reals; C10_binary64_refuted shows that in binary64 the sums depend on the order.
* **C76 Results do not depend on where the origin is** - SpecShift.v says what it means to move particles, plates, grid, obstacles and reference point by a vector (`move_state`, `scene_moved`; an obstacle is moved if it covers at x+a what the old one covered at x, with the same normal). ShiftProofs.v shows for every function of a step that it commutes with the translation, for all outcomes including undefined behaviour: the grid starts at the smallest particle coordinate, all weights depend on differences only. C76_step, C76_simulation; C76_ground shows that level ground can be moved. Excluded: periodic boundaries (fixed domain [0,Lx], fixed grid) and the hard-coded relocation `change_particle_positions`, which use absolute coordinates. Over the reals.
* **C77 The centre of mass of an isolated body moves like a point mass** - SpecCentre.v defines centre of mass, mean velocity and the point mass (`projectile`). CentreProofs.v: the sum of the interpolated grid velocities is the total momentum after the grid update, because the weights sum to one and the internal forces to zero. C77_step for one step, C77_run by induction over `exact_run`, C77_parabola for constant gravity.
* **C78 Particles are not turned inside out** - det(I + dt L) > 0 from diagonal dominance, |L_ij| <= 2 c / dx from the sum of |grad w| over a stencil (kernel case analysis), sign of det F kept by the plastic correction since U and V are unchanged (SpecInside, InsideProofs, PropInside). Refuted for the time-step limits alone: two undeformed resting particles with an affine velocity field pass updateDt with the default Courant numbers and come out with det F = -4.
* **C79 Galilean invariance of a time step** - two runs of `advanceStep` on the same grid (it is built from positions only) are compared node by node (SpecMpm's node law: projection of boosted velocities, equal internal forces) and particle by particle (partition of unity, vanishing first moments and gradient sums). The time step is a hypothesis because the CFL condition depends on the frame: `C79_time_step` shows that the largest speed is all it sees.
* **C80 Locality of a time step** - SpecMpm's node and particle laws for both runs; weights and their derivatives vanish outside the kernel, so the sums over all particles reduce to the common ones (as multisets), and sums over the two grids to sums over stencils with the same node positions (`aligned_items`). The time step is a hypothesis: it depends on the largest speed of the whole cloud. One lattice is a hypothesis: the first step anchors the grid at the smallest coordinates of the whole cloud.
* **C81 A step with periodic boundaries is a step of the infinite periodic body** - SpecRing defines the copies (`copies p K l`) and the wrap; C81_step proves node and particle laws (the ones of C67) for the copies for every K >= 1, from the images of C32. C81_uniform_motion: without MUSL a uniform stress-free body keeps F. C81_musl_refuted: with MUSL the second projection runs after the ghosts are deleted, so a uniform stress-free body is strained at the seam (F00 = 1 + 3/2 dt in the witness).
* **C82 Momentum in a periodic box** - On top of C81: the sum over particles in the box and all nodes equals the sum over the nodes of one period and all copies, because weights and gradients move with particle and node; each field of the nodes is periodic. True when Lx is a whole number of cells; `C82_cells_refuted` shows that otherwise the momentum is not conserved.
* **C83 Parallel loops: no data races, and every interleaving gives the same outcome** - Threads.v is a second model of the loops, as programs of loads, stores, and entries and exits of the critical section, run by an interleaving machine; SpecThreads.v defines race and 'inevitably'. Ownership argument: an iteration touches only its own entries and read-only memory, so threads commute (ThreadProofs.v); the merges are serialised by the critical section. The result of every interleaving is the result of the block model in Transfer.v, which justifies that model. Refuted: G2P without MUSL races on the counter of yielding particles, PBCAddParticles on the vector of positions, and two aborting particles on two threads race on the abort flag (C83_exit_race; both write the same value).
* **C84 Clock, frames and termination in double precision** - binary64 operations of `NumF` related to rounding of reals through Flocq (`FloatBase`); loop invariant on the rounded clock; `PropClockF`: `C84_step_size`, `C84_loop_ends`, `C84_frames`, the run `C84_ex`. Strengthens C26/C27, which are about exact reals.
* **C85 The first grid holds every particle's stencil, in double precision** - Model: NumF instance (binary64) of Remesh.remeshFixedInit, Transfer.stencil, Tools.N2. Proof: error analysis through Flocq (FloatBase, FloatGrid, FloatKernel): drift of the repeated addition, error of the scaled distance, exact floor and truncation; the margin of one cell of the layout absorbs all of it. Lipschitz bound of the kernel gives the weights. Later grids: see C86. Not covered: cubic and linear splines for the weight sum.
* **C86 Every later grid holds every particle's stencil, in double precision** - Model: NumF instance (binary64) of Remesh.remeshFixedCont on the mesh record of remeshFixedInit. Proof: error analysis of the shift factor (FloatCont), then the same per-axis invariant as C85. The full claim is false (C86_refuted: spacing 1, a particle moving from 0 to 1 loses the last column of its stencil: undefined behaviour). Proved: the claim for all clouds that avoid a window of width dx*1e-8 + 2^-48 (M+8)^2 cells at whole numbers of cells outside the first cloud (C86_later_grids_*_partial, C86_weights_partial), and without exception for clouds within the first cloud's range (C86_within_first_range). Missing: nothing else; inside the window the code can read and write out of bounds. Finding: the safety term 1e-8*dx in the shift factor is subtracted from a number of cells, so it is dimensionally inconsistent and has the wrong sign at the outer edge.
* **C87 Periodic boundaries in double precision** - Model: NumF instance (binary64) of Transfer.pbc_wrap, Pbc.pbc_image, Remesh.remeshFixed, Transfer.stencil. Proof: Sterbenz for the wrap on the right, monotone rounding on the left, error analysis of the images and of the fixed grid lines (FloatPbc), then the per-axis invariant of C85. Coverage is false without two exceptions: at height 0 with dx = 0.09 the product dx*(1/dx) is below 1 and G2P converts -1 to unsigned (C87_ground_refuted; over the reals this particle is covered, C33); a particle one ulp less than four cells from the left end gets a ghost that is rounded to exactly Lx+4dx, and P2G reads past the last grid line (C87_ghost_refuted). A particle that crosses the left end by less than half an ulp of Lx is put exactly on Lx, where no image is made (C87_right_end_refuted), so the state of C32_right_end_refuted is reachable. Partial: coverage and weights proved outside the window |distance - 4 cells| < 2^-48 (M+8)^2 and above height 2^-49 (M+8)^2 cells.
* **C88 Mass on the grid in double precision, for every thread schedule** - the rounded sums of FloatSum.v: an invariant 'relative error at most k 2^-52' per node, kept by adding a weight (sums of floats have a purely relative error) and by merging a thread's buffer; PropMassF.v ties it to the weights of C85-C87. The weights below 1e-25 that the code skips are part of the bound
* **C89 Velocities on the grid in double precision, for every thread schedule** - FloatVel.v: the invariant |momentum| <= V weight (1 + 4 2^-52)^k next to the mass invariant of C88, kept by both additions of APIC and by merging; the affine term is bounded through the distance of at most 9/4 cells to each visited node
* **C90 Reading back from the grid, and moving, in double precision** - FloatGather.v: a stencil sum of products t w with |t| <= T stays below T times the sum of the weights times (1 + 4 2^-52)^k; weights from C85; the affine part through the distance of at most 9/4 cells; loop_cells turns the parallel loops into per-particle updates; PropBackPbcF.v adds periodic grids, with the wrap of C87
* **C91 Forces on the grid stay finite in double precision** - Rounded gradients are at most 1.002/h, one particle adds at most 3.01 T/h to a nodal force (FloatForce). Relative to the weights above 1e-25 this is an invariant of adding and merging (as for velocities in C89). The loop over nodes is shown to visit each node once for any permutation of the nodes; each update divides a force by a mass that is at least 0.98 times the weight times the particle mass. Objects and plates are not included. The factor 10^26 is an upper bound that is not claimed to be sharp; the combination with C90 into a whole step is therefore only useful for nearly stress-free material (hence _partial). Plates at rest only shrink each component of the result (lemma plates_all of C93), so the bound also holds with them.
* **C92 Ghost particles of a one-cell-wide column** - The loop that appends is shown by induction to append the two shifted copies of each particle in order; deletion is the lemma of C30. Positions are over the reals. The shipped programs never call this member function (only PBCAddParticles is called); it is public, so a user program can.
* **C93 Contact with resting plates in double precision** - Monotonicity of rounding: v - mu|vn| rounded lies between 0 and v because both are doubles and the test compares the same rounded product; adding and subtracting the zero plate velocity is exact; the rounded difference x - position has the sign of the exact one, so the test of the code is the geometric one. Induction over the plates with the invariant that each component only shrinks towards zero. The 3D friction formula divides by squares that can underflow; C93_friction_3D_refuted gives 0/0.
* **C94 A moving plate is never entered, in double precision** - The rounded difference v - q has the sign of the exact one (gradual underflow, lemma of monotone rounding), friction never touches the normal component (slide_normal), and rounding w + q is monotone with rnd(q) = q, so the result stays on the side of q.
* **C95 A plate at rest stays in place in double precision** - Zero times a finite factor and adding zero are exact; the factor 1/vmin is finite for |vmin| >= 2^-1000. Induction over the steps. For vmin = 0 the witness is computed: 0 * inf = NaN, and every comparison with NaN is false.

## Findings

Defects of the program that the proofs uncovered. `(Cnn)` names the claim with the theorem.

Grid and transfer
* The adaptive grid keeps one free layer only as long as the cloud does not move by certain
  amounts; a later grid may not cover a particle's stencil (C05, refuted).
* remeshFixed(4) leaves only one node below y = 0 (C33, undefined below zero).
* The initial grid puts the extreme particles exactly on grid lines. With linear splines the
  gradient weights do not sum to zero there (C02), so even uniform motion produces spurious strain.
* `arange` may not terminate in binary64 when the step is absorbed by the value.
* Double precision, adaptive grid: a particle that moved outwards by a whole number of cells loses one column of its stencil (C86, refuted).
* Double precision, periodic grid: a particle at height 0 makes G2P convert -1 to unsigned for spacings such as 0.09 (C87, refuted);
  a particle one ulp less than four cells from the left end makes P2G read past the last grid line (C87, refuted);
  a particle that crosses the left end by less than half an ulp of Lx lands exactly on Lx and has no image (C87, refuted).
* Grid friction of massless nodes is 0/0 (C16, refuted).
* P2G is not bitwise reproducible in binary64 across schedules (C10, refuted).

Boundaries
* With MUSL the grid velocities that strain the material and that are saved come from the second projection,
  which no obstacle corrects: a node inside a no-slip wall moves (C61, refuted).
* The mu(I) Drucker-Prager model stores the plastic strain increment instead of the rate when it
  projects to the tip (plasticity.cpp:419, marked "NB!"): delta_gamma differs from all other
  branches by the factor dt (C62, refuted).
* Viscous Drucker-Prager with cohesion reports a friction coefficient below M, even negative, when
  it yields under tension, because the viscous overstress is divided by a negative pressure
  (plasticity.cpp:386). Boundary friction then uses that value (C63, refuted).
* 3D plate friction scales the second tangential component with the already reduced first one
  (C20, refuted).
* A later object may push a node into an earlier one (C22, refuted).
* ObjectGround::normal leaves n(2) uninitialised in 3D (C23, refuted).
* A plate's loading factor is not applied in the first step's collisions (C24, refuted).
* Negative friction on 2D plates adds energy (C21, refuted).
* SlipStick plates apply friction also to separating nodes.

Time
* In binary64 the clock may stall (C27, refuted). Speeds below 1e-10 are ignored by the CFL
  condition (C25). A NaN speed gives dt = dt_max.
* A second simulate() starts from the ramped gravity (C29, refuted); the step counter is not reset,
  so the initial remesh is skipped.
* The last frame is written twice (C26), and the initial frame has no grid file.
* update_dt.cpp limits the time step with sqrt(E/rho), the wave speed of a slender bar. Plane
  waves are faster, by 16% at nu = 0.3 and without bound as nu approaches 0.5, so that the elastic
  CFL number in use is larger than the one the user set (C69, refuted).
* examples/cube_rotating.cpp sets rho = 1550 after the particles were sampled with rho = 1000: the
  particles keep the mass of the lower density, and the time step is computed for the higher (C69).

Periodic boundaries
* A particle exactly at Lx, domains narrower than 8 cells and the particle friction have no image
  (C32, refuted). The vectors are reallocated while other threads read
  them: particles.x[p] is read outside the critical section in which push_back runs (C83, refuted).
* With MUSL the second projection does not see ghosts.

Contact in double precision
* In 3D with friction, a node whose second tangential velocity is zero and whose reduced first one is below
  about 1e-162 gets 0/0 as its second component (boundary_collision.cpp:117 and copies; C93, refuted). From
  there NaN would spread to the particles. The velocities needed are far below physical ones.
* A plate at rest that is given vmin_factor = 0 and a positive load_factor loses its position: 0 * (1/0) is NaN
  (object_plate.hpp:138-141; C95, refuted). From then on it stops nothing, without a message.

Plasticity
* DPSoft projects with predicted softening (C37, refuted).
* Cam-Clay plastic shear strain may decrease (C43, refuted in binary64).
* VMVisc below the pressure cut-off resets F but not the stress (C44, refuted) and does not count
  the particle.
* MCCMui with NoHard and MCC with NoHard and use_mibf read uninitialised variables (C46, refuted).
* delta_gamma is stale for elastic particles without MUSL (C47, refuted); the counter of yielding
  particles is a data race in G2P (C47, C83, refuted). DPMui at the tip stores the plastic strain instead
  of the rate.
* DPMui updates the volume correction regardless of use_pradhana. DPVisc and DPMui leave a state
  exactly at the tip unprojected.
* DPMui with cohesion computes the friction part from the pressure instead of its distance to the tip
  (plasticity.cpp:438-440): in tension the shear stress can come out negative and larger in magnitude
  than the trial stress, so that yielding creates elastic energy (C68, refuted).
* DPVisc with use_mibf may store a negative friction or 1e10.
* Newton loops set the fatal flag when the last iteration starts, also if it converges. In
  MCCRMAExplicitOnevar the test is `y < 1e-6` instead of `|y| < 1e-6`, which is harmless over the
  reals because y stays nonnegative (C65_onevar). In MCCRMAExplicit the damped step of the
  multiplier has the wrong sign.
* The implicit Cam-Clay solvers relax the shear stress with mu instead of 2 q_prefac^2 mu: unless
  q_prefac has its default value, they return other stresses than the explicit solver for the same
  material (C65_flow_modulus_refuted). The sinh solver uses a wrong derivative of its hardening law
  (C65_sinh_derivative_refuted).
* The three-variable implicit solver (mcc_rma_implicit_exponential.hpp, called by no material) has the
  wrong sign in the last term of the derivative of the yield function with respect to the pressure
  (line 34; also in line 35): it is Newton's method for associated flow only if beta or xi is zero
  (C65_three_variable_partial, C65_three_variable_slope_refuted). When the 40 iterations are used up it
  clips the last iterate with the preconsolidation pressure of the iterate before.
* MCCRMAExplicit and the implicit exponential solver do not report that they ran out of iterations.
* The early return at the apex of the implicit Cam-Clay solvers is not clamped.
* Viscous Drucker-Prager and mu(I) leave the whole trial shear stress in place when the trial
  pressure is exactly at the tip of the cone (neither `<` nor `>` applies), e.g. after a
  volume-preserving shear of a cohesionless unstressed particle (C70, refuted).
* mu(I) with cohesion can reverse the direction of the shear stress (C70_cohesive_mui_refuted).
* C81: `MUSL()` runs after `PBCDelParticles()`. The masses of the nodes at the seam include the ghosts, the momentum of the
  second projection does not, so with periodic boundaries and MUSL the velocities at the seam are too small and a body in
  uniform motion is strained there (C81_musl_refuted).
* C82: `remeshFixed` does not require Lx to be a whole number of cells, and the sampling functions compute dx from the number of
  particles, so the nodes at the two ends of a periodic box are in general not images of each other. The momentum of a periodic body is
  then not conserved (`C82_cells_refuted`).

Output
* last_written.txt is written before the particle file is closed, and the last frame is written
  again (C50, refuted). A stale last_written.txt survives when a directory is reused.
* computeAvgData: volavg_kirchh weights with J and volavg_cauchy does not, as the names require.
* checkMomentumConservation prints its two labels swapped.
