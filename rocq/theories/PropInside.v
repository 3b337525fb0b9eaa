(** * PropInside: C78, particles are not turned inside out while the motion over a step is small. *)
From Coq Require Import Reals ZArith Lra Lia List Bool.
From Verif Require Import Num NumR Tools Lin Types Remesh Objects Transfer Rma Plastic Step Spec SpecStep SpecMech SpecPlastic SpecMaterial SpecMpm SpecInside
  LinProofs ResProofs TimeProofs PloopProofs PlateProofs IndexProofs StencilProofs StepProofs OutputProofs MaterialStep MpmProofs PropTime PropStep PropMaterial PropMpm ExStep ExMech SvdExist ExPlastic InsideProofs.
Import ListNotations.
Local Open Scope R_scope.

Theorem C78_step : forall G, two_or_three G -> forall svd uabs af p sc s0 s1 n, svd_ok svd -> 0 < dx p -> 0 < min_dt p ->
  valid_sched sc -> well_formed s0 n -> advanceStep svd uabs af p sc s0 = Ok s1 -> GridOk p (s_axes s1) ->
  gentle p s1 -> right_way_round s0 -> right_way_round s1.
Proof.
  intros G HG svd uabs af p sc s0 s1 n Sv Hdx Hm V W H GO (u & c & Hu & Hc & Hs & Hn) RW F1 HF1. pose proof (geolaws G HG) as GL.
  pose proof (step_dt_pos G HG svd uabs af p sc s0 s1 Hm H) as Hdt.
  destruct (step_constitutive svd uabs af p sc s0 s1 n V W H) as (l & l1 & E0 & N & E1 & F2). rewrite E1 in HF1. cbn [pack p_F] in HF1. apply in_map_iff in HF1. destruct HF1 as (q1 & <- & Hq1).
  apply In_nth_error in Hq1. destruct Hq1 as (i & Hi).
  assert (Hl : exists q, nth_error l i = Some q).
  { destruct (nth_error l i) eqn:X; [eauto|]. apply nth_error_None in X. assert (Y : nth_error l1 i <> None) by congruence. apply nth_error_Some in Y. assert (LL : length l = length l1) by (clear - F2; induction F2; cbn; congruence). lia. }
  destruct Hl as (q & Hq). destruct (F2_nth _ _ _ _ _ _ _ F2 Hq) as (q1' & Hq1' & c' & L & o & HL & Ho & A & _). assert (q1' = q1) by congruence. subst q1'.
  rewrite A. eapply plast_orientation; [exact HG|exact Sv|exact Ho|]. rewrite mdet_mul by auto. apply Rmult_lt_0_compat.
  - apply det_increment; [auto|lra|]. intros a Ha.
    assert (B : forall b, (b < dim)%nat -> Rabs (mget L a b) <= 2 * c / dx p).
    { intros b Hb. apply (vg_bound p Hdx _ _ _ L u c GO HL Hc Hu Hn); auto. intros items it E Hit.
      pose proof (stencil_g2p_covered p Hdx _ _ items GO E) as C. destruct (stencil_cov p Hdx _ _ GO C) as (_ & E' & SLx). rewrite E in E'. apply PlasticModels.Ok_inj in E'. subst items.
      rewrite (step_sized G svd uabs af p sc s0 s1 H), (grid_nodes_val p _ GO), Z2Nat.id; [apply (sl_idx _ _ _ _ SLx it Hit)|].
      pose proof (sl_idx _ _ _ _ SLx it Hit). lia. }
    assert (S : Rsum (fun j => Rabs (mget L a j)) (seq 0 dim) <= INR dim * (2 * c / dx p)).
    { rewrite <- (seq_length dim 0) at 2. rewrite <- Rsum_const. apply Rsum_le. intros b Hb. apply in_seq in Hb. apply B. lia. }
    apply Rle_lt_trans with (s_dt s1 * (INR dim * (2 * c / dx p))); [apply Rmult_le_compat_l; lra|].
    apply Rmult_lt_reg_r with (dx p); [exact Hdx|]. replace (s_dt s1 * (INR dim * (2 * c / dx p)) * dx p) with (2 * INR dim * c * s_dt s1) by (field; lra). lra.
  - apply RW. rewrite E0. cbn [pack p_F]. apply in_map. eapply nth_error_In; eauto.
Qed.
Print Assumptions C78_step.

(** Over any number of steps. *)
Theorem C78_run : forall G, two_or_three G -> forall svd uabs af p s s' n, svd_ok svd -> 0 < dx p -> 0 < min_dt p -> well_formed s n ->
  gentle_run svd uabs af p s s' -> right_way_round s -> right_way_round s'.
Proof.
  intros G HG svd uabs af p s s' n Sv Hdx Hm W R. pose proof (geolaws G HG) as GL. revert W. induction R as [s|sc s0 s1 s2 V E GO Ge R IH]; intros W RW; [exact RW|].
  apply IH.
  - apply PropStep.wf_tick. eapply wf_step; eauto.
  - assert (X : right_way_round s1) by (eapply C78_step; eauto). intros F HF. apply X. unfold tick in HF. cbv zeta in HF. destruct (nltb _ _); exact HF.
Qed.
Print Assumptions C78_run.

(** Weighted averages of numbers of absolute value at most [c] are at most [c]. *)
Lemma avg_bound : forall X (w f : X -> R) c l, (forall q, In q l -> 0 <= w q) -> (forall q, In q l -> Rabs (f q) <= c) -> 0 < Rsum w l ->
  Rabs (Rsum (fun q => w q * f q) l / Rsum w l) <= c.
Proof.
  intros X w f c l Hw Hf Hs. unfold Rdiv. rewrite Rabs_mult, (Rabs_right (/ _)) by (apply Rle_ge, Rlt_le, Rinv_0_lt_compat, Hs).
  apply Rmult_le_reg_r with (Rsum w l); [exact Hs|]. rewrite Rmult_assoc, Rinv_l, Rmult_1_r by lra. eapply Rle_trans; [apply Rabs_Rsum|].
  rewrite <- Rsum_scal. apply Rsum_le. intros q Hq. rewrite Rabs_mult, (Rabs_right (w q)) by (apply Rle_ge; auto). specialize (Hw q Hq). specialize (Hf q Hq). nra.
Qed.
(** A cloud without stress, gravity, obstacles and affine velocities is gentle when no particle moves by
    dx / (2 dim) in a direction during the step: its velocity limit is then a sufficient condition. *)
Theorem C78_stress_free : forall G, two_or_three G -> forall svd uabs af p sc s0 s1 n c, 0 < dx p -> 0 < particle_mass p -> use_musl p = false ->
  valid_sched sc -> well_formed s0 n -> free_space p s0 -> advanceStep svd uabs af p sc s0 = Ok s1 -> GridOk p (s_axes s1) ->
  regular_cloud p (s_axes s1) (p_x (s_p s0)) -> s_grav s1 = vzero -> (forall t, In t (p_tau (s_p s0)) -> t = mzero) ->
  (flip_ratio p < 0 -> forall B, In B (p_B (s_p s0)) -> B = mzero) -> 0 <= c ->
  (forall v k, In v (p_v (s_p s0)) -> (k < dim)%nat -> Rabs (vget v k) <= c) -> 2 * INR dim * c * s_dt s1 < dx p -> gentle p s1.
Proof.
  intros G HG svd uabs af p sc s0 s1 n c Hdx Hm Mu V W (F1 & F2 & F3 & F4) H GO RC Hg Ht HB Hc Hv Hs. pose proof (geolaws G HG) as GL.
  exists vzero, c. split; [auto|]. split; [exact Hc|]. split; [exact Hs|]. intros nd k Hnd Hk. rewrite vget_zero, Rminus_0_r by auto.
  pose proof (C59_grid_update G HG svd uabs af p sc s0 s1 n Hdx Hm F1 Mu V W H GO RC) as NL.
  assert (Ex : exists X, node_law p (s_plates s0) (s_dt s1) (s_grav s1) (particles (s_p s0)) X nd).
  { clear - NL Hnd. induction NL; [easy|]. destruct Hnd as [<-|Hnd]; eauto. }
  destruct Ex as (X & [Ms Em Nw]).
  assert (Wp : forall x, 0 <= weight p X x) by (intros; unfold weight; apply fold_mult_pos; intros y Hy; apply in_map_iff in Hy; destruct Hy as (? & <- & _); apply KernelProofs.N_nonneg).
  assert (M0 : 0 <= nd_m nd). { rewrite Ms. apply Rmult_le_pos; [lra|]. apply Rsum_nonneg. intros; apply Wp. }
  destruct (Req_dec (nd_m nd) 0) as [Z|NZ]; [rewrite (Em Z), vget_zero, Rabs_R0 by auto; exact Hc|].
  destruct (Nw ltac:(lra)) as (free & mu & Nf & _ & Bc).
  assert (Fr : nd_v nd = free).
  { unfold boundaryCollision, objects_loop, plates_loop in Bc. rewrite F3, F4 in Bc. cbv zeta in Bc. cbn in Bc. congruence. }
  rewrite Fr. destruct (wf_pack s0 n W) as (l & L & E & N & F). rewrite E, particles_pack in *. unfold pack in Ht, HB, Hv. cbn [p_tau p_B p_v] in Ht, HB, Hv.
  assert (In0 : internal p l X k = 0).
  { unfold internal. rewrite (Rsum_ext _ (fun _ => 0)); [rewrite Rsum_const; ring|]. intros q Hq. unfold sum_axes. rewrite (Rsum_ext _ (fun _ => 0)); [rewrite Rsum_const; ring|].
    intros j Hj. apply in_seq in Hj. rewrite (Ht (q_tau q)) by (apply in_map; exact Hq). rewrite mget_zero by lia. ring. }
  specialize (Nf k Hk). rewrite Hg, vget_zero, In0 in Nf by auto.
  assert (Pf : vget free k = projected p l X k).
  { replace (s_dt s1 * (nd_m nd * 0 + 0)) with 0 in Nf by ring. apply Rmult_integral in Nf. destruct Nf; lra. }
  rewrite Pf. unfold projected. apply avg_bound.
  - intros; apply Wp.
  - intros q Hq. unfold carried. destruct (Rlt_dec (flip_ratio p) 0) as [Hf|Hf].
    + unfold sum_axes. rewrite (Rsum_ext _ (fun _ => 0)).
      * rewrite Rsum_const, Rmult_0_r, Rmult_0_r, Rplus_0_r. apply Hv; [apply in_map; exact Hq|exact Hk].
      * intros j Hj. apply in_seq in Hj. rewrite (HB Hf (q_B q)) by (apply in_map; exact Hq). rewrite mget_zero by lia. ring.
    + rewrite Rplus_0_r. apply Hv; [apply in_map; exact Hq|exact Hk].
  - rewrite Ms in NZ, M0. destruct (Req_dec (Rsum (fun q => weight p X (q_x q)) l) 0) as [Z|Z]; [rewrite Z in NZ; lra|].
    assert (0 <= Rsum (fun q => weight p X (q_x q)) l) by (apply Rsum_nonneg; intros; apply Wp). lra.
Qed.
Print Assumptions C78_stress_free.

(** Two approaching, sheared particles: (1,2) and (-1,1), FLIP, one step at 1000 frames per second. *)
Example C78_ex : forall uabs, exists af s1, let p := ex_p 1 false 1000 vzero false in
  let s0 := ex_state p (two_particles (e2 1 2) (e2 (-1) 1) mzero mzero mzero mzero) in
  svd_ok (G := Geo2 R) svdx /\ well_formed s0 2 /\ advanceStep svdx uabs af p rev_sched s0 = Ok s1 /\ GridOk p (s_axes s1) /\
  right_way_round s0 /\ gentle p s1 /\ gentle_run svdx uabs af p s0 (tick p s1).
Proof.
  intros uabs. destruct (ex_mech svdx uabs rev_sched 1 false vzero (e2 1 2) (e2 (-1) 1) mzero mzero mzero mzero rev_valid) as (af & s1 & E & Fs & GO & Rg & Hg).
  exists af, s1. cbv zeta. set (p := ex_p 1 false 1000 vzero false) in *. set (s0 := ex_state p (two_particles (e2 1 2) (e2 (-1) 1) mzero mzero mzero mzero)) in *.
  assert (W : well_formed s0 2) by apply ex_wf.
  assert (Dt : s_dt s1 <= 1/1000).
  { destruct (step_dt_grav svdx uabs af p rev_sched _ s1 E) as (_ & _ & sp & _ & Ed). rewrite Ed. eapply Rle_trans; [apply dt_frame|].
    rewrite frame_dt_R. change (s_frame s0 + 1)%Z with 1%Z. replace (s_time s0) with 0 by (cbn; lra). cbn [fps p ex_p min_dt]. apply Rmax_lub; lra. }
  assert (Ge : gentle p s1).
  { apply (C78_stress_free _ (or_introl eq_refl) svdx uabs af p rev_sched s0 s1 2 2); auto; try exact rev_valid; try (cbn; lra).
    - intros t [<-|[<-|[]]]; reflexivity.
    - intros v [|[|k]] [<-|[<-|[]]] Hk; cbn in Hk |- *; try lia; unfold Rabs; destruct (Rcase_abs _); lra. }
  split; [apply svdx_ok|]. split; [exact W|]. split; [exact E|]. split; [exact GO|]. split; [|split; [exact Ge|]].
  - intros F [<-|[<-|[]]]; unfold mdet; cbn; lra.
  - eapply gentle_step; [exact rev_valid|exact E|exact GO|exact Ge|constructor].
Qed.

(** The limits that the program puts on the time step do not suffice: they do not see the affine part of
    the velocities.  Two undeformed particles with velocity zero whose affine velocity field compresses
    the material along (1/2, 1); the step passes with the default Courant numbers, and both particles come
    out inside out. *)
Theorem C78_time_step_limits_refuted : forall svd uabs, exists af p sc s0 s1, cfl p = 1/2 /\ cfl_elastic p = 1/2 /\ valid_sched sc /\ well_formed s0 2 /\
  (forall v, In v (p_v (s_p s0)) -> v = vzero (G := Geo2 R)) /\ (forall F, In F (p_F (s_p s0)) -> F = mident) /\
  advanceStep svd uabs af p sc s0 = Ok s1 /\ s_exit s1 = false /\ right_way_round s0 /\ forall F, In F (p_F (s_p s1)) -> mdet F < 0.
Proof.
  intros. set (A := mkM2 (-1000) (-2000) (-2000) (-4000)). set (c := e2 1000 2000).
  set (B := mkM2 (-250) (-500) (-500) (-1000)).
  destruct (ex_mech svd uabs rev_sched (-2) false vzero vzero vzero B B mzero mzero rev_valid) as (af & s1 & E & Fs & GO & Rg & Hg).
  set (p := ex_p (-2) false 1000 vzero false) in *. set (s0 := ex_state p (two_particles vzero vzero B B mzero mzero)) in *.
  assert (W : well_formed s0 2) by apply ex_wf.
  assert (Dt : s_dt s1 = 1/1000).
  { destruct (step_dt_grav svd uabs af p rev_sched _ s1 E) as (_ & _ & sp & Em & Ed).
    assert (Sp : sp = 0).
    { apply max_speed_spec in Em. destruct Em as (_ & (v & Hv & ->) & _). destruct Hv as [<-|[<-|[]]]; unfold vnorm, vsqnorm, vdot; cbn; replace (0 / 1 * (0 / 1) + 0 / 1 * (0 / 1)) with 0 by lra; exact sqrt_0. }
    assert (T0 : s_time s0 = 0) by (cbn; lra).
    rewrite Ed, Sp, dt_of_spec. rewrite Rabs_R0. destruct (Rlt_dec _ 0); [lra|].
    rewrite final_R, frame_dt_R. rewrite T0. change (s_frame s0 + 1)%Z with 1%Z. cbn [fps p ex_p end_frame min_dt].
    assert (Wv : 1/1000 <= dt_max p).
    { unfold dt_max, wave_speed. numR. cbn [cfl_elastic dx rho young p ex_p]. replace (1000 / 1000) with 1 by lra. rewrite sqrt_1. lra. }
    rewrite Rmin_right by (rewrite Rmin_right; lra). rewrite Rmax_left; lra. }
  assert (Hv : [vzero; vzero] = map (fun x => vadd c (mvec (G := Geo2 R) A x)) [e2 (1/2) (1/4); e2 (-1/2) (3/4)]).
  { cbn [map]. f_equal; [|f_equal]; apply (vext (GeoLaws := geolaws _ (or_introl eq_refl))); intros [|[|k]] Hk; cbn in Hk |- *; try lia; lra. }
  assert (HB : forall M, In M [B; B] -> M = mscale (G := Geo2 R) A (spline_inertia p)).
  { intros M [<-|[<-|[]]]; apply (mext (GeoLaws := geolaws _ (or_introl eq_refl))); intros [|[|i]] [|[|j]] Hi Hj; cbn in Hi, Hj |- *; try lia; lra. }
  destruct (C13_affine_fields _ (or_introl eq_refl) svd uabs af p rev_sched s0 s1 2 c A (ex_dx _ _ _ _ _) (ex_mass _ _ _ _ _) rev_valid W Fs ltac:(cbn; lra) ltac:(discriminate) E GO Rg Hv HB) as (_ & _ & _ & HF).
  { intros t [<-|[<-|[]]]; reflexivity. }
  specialize (HF eq_refl). exists af, p, rev_sched, s0, s1. split; [reflexivity|]. split; [reflexivity|]. split; [exact rev_valid|]. split; [exact W|].
  split; [intros v [<-|[<-|[]]]; reflexivity|]. split; [intros F [<-|[<-|[]]]; reflexivity|]. split; [exact E|]. split; [|split].
  - rewrite (elastic_exit _ (geolaws _ (or_introl eq_refl)) svd uabs af p rev_sched s0 s1 2 rev_valid W eq_refl E). reflexivity.
  - intros F [<-|[<-|[]]]; unfold mdet; cbn; lra.
  - intros F HF1. rewrite HF in HF1. apply in_map_iff in HF1. destruct HF1 as (F0 & <- & HF0). rewrite Dt. destruct HF0 as [<-|[<-|[]]]; unfold mdet; cbn; lra.
Qed.
Print Assumptions C78_time_step_limits_refuted.
