(** * PropMccF: C43 fails for MCC in binary64. *)
From Coq Require Import ZArith List Bool Floats.SpecFloat.
From Verif Require Import Num NumF Tools Lin Types Transfer Rma Plastic Step ExamplesF.
Import ListNotations.

(** 2D, MCC without hardening, E = 1/100, nu = 1/4, p0 = 1/1000, M = 1, beta = 1, q_prefac = 1. *)
Definition soft_clay (L : Libm) : @Par F (Geo2 F) := let nf := NumF L in
  {| spline := Deg2; end_frame := 1; use_pbc := false; change_pos := false; gravity_special := false;
     save_sim := true; save_grid := false; use_mibf := false; use_musl := false;
     grid_ref := vtab (fun _ => nofZ 20000000000); gravity0 := vzero;
     min_dt := nofQ 1 100000000000000; fps := nofZ 1; cfl := nofQ 1 2; cfl_elastic := nofQ 1 2; flip_ratio := nofZ 1;
     rho := nofZ 1000; gravity_time := nofZ 0; Lx := nofZ 1; Ly := nofZ 1; Lz := nofZ 1;
     particle_mass := nofZ 1; particle_volume := nofZ 1; dx := nofZ 1;
     elastic_model := Hencky; plastic_model := MCC; hardening_law := NoHard;
     use_pradhana := true; young := nofQ 1 100; nu := nofQ 1 4; stress_tolerance := nofQ 1 100000; xi := nofZ 0;
     q_max := nofZ 100; q_min := nofZ 100; p_min := nofZ (-100);
     Mfric := nofZ 1; q_cohesion := nofZ 0; visc_exponent := nofZ 1; visc_time := nofZ 0; use_dl := false;
     beta := nofZ 1; p0 := nofQ 1 1000; rho_s := nofZ 2500; grain_diameter := nofQ 1 1000; I_ref := nofQ 279 1000;
     mu_1 := nofQ 38 100; mu_2 := nofQ 64 100; q_prefac := nofZ 1; objects := [] |}.
(** ln 2 rounded to binary64. *)
Definition ln2_64 : F := S754_finite false 6243314768165359 (-53).
Definition twice : @TM F (Geo2 F) := mkM2 (fofZ 2) (fofZ 0) (fofZ 0) (fofZ 2).
Definition unit2 : @TM F (Geo2 F) := mkM2 (fofZ 1) (fofZ 0) (fofZ 0) (fofZ 1).
Definition vtwo : @TV F (Geo2 F) := mkV2 (fofZ 2) (fofZ 2).
Definition clay_history (d : F) : Hist F := mkHist d (fofZ 0) (fofZ 0) (fofZ 0) (fofZ 0) (fofZ 0).

(** A particle stretched to twice its size in both directions: the trial shear stress is 0, Newton's
    method does not converge in 40 iterations, the fallback p = q = 1e-15 is projected to q = p0, so
    the accumulated plastic shear strain falls from 1 to about 0.875.  For every libm whose log is
    correct at 2. *)
Theorem C43_mcc_binary64_refuted : forall (L : Libm), lm_log L (fofZ 2) = ln2_64 ->
  let nf := NumF L in forall svd dt tau, svd twice = (unit2, vtwo, unit2) ->
  exists o, plasticity (G := Geo2 F) svd SFabs (soft_clay L) dt twice tau (clay_history (fofZ 1)) = Ok o /\
    model_ok (soft_clay L) = true /\ o_exit o = false /\ SFltb (h_dev (o_h o)) (fofQ 9 10) = true.
Proof.
  intros L HL nf svd dt tau Hs. unfold plasticity. rewrite Hs.
  assert (T : trial (G := Geo2 F) vtwo = mkTr (G := Geo2 F) (mkV2 ln2_64 ln2_64) (nadd ln2_64 ln2_64) (mkV2 (fofZ 0) (fofZ 0)) (fofZ 0)).
  { unfold trial. assert (E : vmap (G := Geo2 F) (fun s => nlog (cmax (nabs s) (nofQ 1 10000))) vtwo = mkV2 ln2_64 ln2_64).
    { unfold vmap, vtwo. cbn [vget vtab Geo2 v2_0 v2_1]. replace (cmax (nabs (fofZ 2)) (nofQ 1 10000)) with (fofZ 2) by (vm_compute; reflexivity).
      change (nlog (fofZ 2)) with (lm_log L (fofZ 2)). rewrite ?HL. reflexivity. }
    rewrite E. vm_compute. reflexivity. }
  rewrite T. clear T. unfold return_map. cbn [plastic_model soft_clay]. cbv beta iota zeta.
  set (t := mkTr _ _ _ _). unfold pl_MCC.
  assert (R : mcc_rma (G := Geo2 F) SFabs (soft_clay L) false (nmul (nopp (bulkK (soft_clay L))) (t_tr t)) (nmul (e_mu_prefac (soft_clay L)) (t_n t)) (h_vol (clay_history (fofZ 1))) =
    Some (mkRma (fofQ 1 1000000000000000) (fofQ 1 1000) false true, None)) by (vm_compute; reflexivity).
  cbv zeta. rewrite R. cbn [rm_plastic rm_p rm_q rm_exit].
  change (plastic_model (soft_clay L)) with MCC. change (use_mibf (soft_clay L)) with false. cbv beta iota. cbn [bind].
  eexists. split; [reflexivity|]. split; [reflexivity|]. split; [reflexivity|]. cbn [o_h r_h h_dev set_dg add_dev add_vol clay_history]. vm_compute. reflexivity.
Qed.
Print Assumptions C43_mcc_binary64_refuted.
(** Non-vacuity: such a libm and SVD exist. *)
Example C43_refuted_ex : exists (L : Libm) svd, lm_log L (fofZ 2) = ln2_64 /\ svd twice = (unit2, vtwo, unit2).
Proof. exists (let i := fun x : F => x in Build_Libm i i (fun _ => ln2_64) (fun x _ => x) i i i i i i (fun x _ => x)), (fun _ => (unit2, vtwo, unit2)). auto. Qed.
