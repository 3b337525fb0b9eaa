(** * PropModulusF: the implicit Cam-Clay solvers use the wrong shear modulus unless q_prefac is the default (C65). *)
From Coq Require Import ZArith List Bool Floats.SpecFloat.
From Verif Require Import Num NumF Tools Lin Types Transfer Rma Plastic Step ExamplesF PropMccF.
Import ListNotations.

(** mu = 100, K = 200, p0 = 10, M = 1, beta = 0, xi = 0 (no hardening), q_prefac = 1. *)
Definition stiff_clay (L : Libm) (hl : HardeningLaw) : @Par F (Geo2 F) := let nf := NumF L in let c := soft_clay L in
  {| spline := Deg2; end_frame := 1; use_pbc := false; change_pos := false; gravity_special := false;
     save_sim := true; save_grid := false; use_mibf := false; use_musl := false;
     grid_ref := grid_ref c; gravity0 := vzero;
     min_dt := min_dt c; fps := nofZ 1; cfl := nofQ 1 2; cfl_elastic := nofQ 1 2; flip_ratio := nofZ 1;
     rho := nofZ 1000; gravity_time := nofZ 0; Lx := nofZ 1; Ly := nofZ 1; Lz := nofZ 1;
     particle_mass := nofZ 1; particle_volume := nofZ 1; dx := nofZ 1;
     elastic_model := Hencky; plastic_model := MCC; hardening_law := hl;
     use_pradhana := true; young := nofZ 250; nu := nofQ 1 4; stress_tolerance := nofQ 1 100000; xi := nofZ 0;
     q_max := nofZ 100; q_min := nofZ 100; p_min := nofZ (-100);
     Mfric := nofZ 1; q_cohesion := nofZ 0; visc_exponent := nofZ 1; visc_time := nofZ 0; use_dl := false;
     beta := nofZ 0; p0 := nofZ 10; rho_s := nofZ 2500; grain_diameter := nofQ 1 1000; I_ref := nofQ 279 1000;
     mu_1 := nofQ 38 100; mu_2 := nofQ 64 100; q_prefac := nofZ 1; objects := [] |}.
(** A libm whose exp is exact at zero and NaN everywhere else: nothing else is asked of it. *)
Definition exp_at_zero : Libm := let i := fun x : F => x in
  Build_Libm i (fun x => match x with S754_zero _ => fofZ 1 | _ => S754_nan end) i (fun x _ => x) i i i i i i (fun x _ => x).

(** With xi = 0 the laws NoHard and ExpoImpl describe the same material, yet from the trial state
    (12, 6) the returned pressures differ by 6 percent: 8.796 with modulus 2 q_prefac^2 mu = 200,
    8.247 with modulus mu = 100. *)
Theorem C65_flow_modulus_refuted : let L := exp_at_zero in let nf := NumF L in
  exists r c r' c', mcc_rma SFabs (stiff_clay L NoHard) false (fofZ 12) (fofZ 6) (fofZ 0) = Some (r, c) /\
    mcc_rma SFabs (stiff_clay L ExpoImpl) false (fofZ 12) (fofZ 6) (fofZ 0) = Some (r', c') /\
    rm_plastic r = true /\ rm_exit r = false /\ rm_plastic r' = true /\ rm_exit r' = false /\
    SFltb (fofQ 879 100) (rm_p r) = true /\ SFltb (rm_p r') (fofQ 825 100) = true.
Proof. do 4 eexists. split; [vm_compute; reflexivity|]. split; [vm_compute; reflexivity|]. vm_compute. auto 10. Qed.
Print Assumptions C65_flow_modulus_refuted.
(** With modulus mu in both, the solvers agree to 1e-5. *)
Example C65_modulus_ex : let L := exp_at_zero in let nf := NumF L in let c := stiff_clay L ExpoImpl in
  exists r r', r = MCCRMAExplicit SFabs (fofZ 12) (fofZ 6) (fofZ 1) (fofZ 10) (fofZ 0) (bulkK c) (mu c) /\
    r' = MCCRMAImplicitExponentialOnevar SFabs (fofZ 12) (fofZ 6) (fofZ 1) (fofZ 10) (fofZ 0) (mu c) (bulkK c) (fofZ 0) (fofZ 0) /\
    SFltb (SFabs (nsub (rm_p r) (rm_p r'))) (fofQ 1 100000) = true.
Proof. do 2 eexists. split; [reflexivity|]. split; [reflexivity|]. vm_compute. reflexivity. Qed.
