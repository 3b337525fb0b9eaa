(** * Properties C12-C15, C51 and C53: mechanics of whole time steps. *)
From Coq Require Import Reals ZArith Lra Lia List Bool Permutation.
From Verif Require Import Num NumR Tools Lin Types Remesh Objects Transfer Rma Plastic Pbc Step Spec SpecStep SpecMech LinProofs ResProofs
  KernelProofs GridProofs StencilProofs IndexProofs GradProofs RemeshProofs PloopProofs StepProofs StepMech StepField
  SpecTime TimeProofs PlateProofs GuardProofs ExStep ExMech.
Import ListNotations.
Local Open Scope R_scope.

Lemma F2_out : forall X Y Z (Q : X -> Y -> Prop) l l1, Forall2 Q l l1 -> forall (f : X -> Z) (g : Y -> Z), (forall q q1, In q l -> Q q q1 -> g q1 = f q) -> map g l1 = map f l.
Proof. intros X Y Z Q l l1 F f g. induction F; intros H0; cbn; auto. rewrite (H0 x y), IHF; auto. - intros; apply H0; auto. now right. - now left. Qed.
Lemma F_trial_0 : forall (G : Geo R) (GL : GeoLaws G) dt (F : TM), F_trial dt mzero F = F.
Proof.
  intros. unfold F_trial. replace (mlscale dt mzero) with (@mzero R _ G) by (apply mext; intros; autorewrite with geo; numR; ring).
  rewrite mmul_0_l. apply mext. intros. autorewrite with geo. numR. ring.
Qed.

(** ** C12 *)
(** Free fall of a stress-free cloud with a common velocity; with zero gravity, uniform motion. *)
Theorem C12_free_fall : forall (G : Geo R), two_or_three G -> forall svd uabs af p sc s0 s1 n (U : TV),
  0 < dx p -> 0 < particle_mass p -> valid_sched sc -> well_formed s0 n -> free_space p s0 ->
  advanceStep svd uabs af p sc s0 = Ok s1 -> GridOk p (s_axes s1) -> regular_cloud p (s_axes s1) (p_x (s_p s0)) ->
  (forall v, In v (p_v (s_p s0)) -> v = U) -> (forall t, In t (p_tau (s_p s0)) -> t = mzero) ->
  (flip_ratio p < 0 -> forall B, In B (p_B (s_p s0)) -> B = mzero) ->
  let U1 := vadd U (vscale (s_grav s1) (s_dt s1)) in
  p_v (s_p s1) = map (fun _ => U1) (p_v (s_p s0)) /\
  p_x (s_p s1) = map (fun x => vadd x (vscale U1 (s_dt s1))) (p_x (s_p s0)) /\
  (plastic_model p = NoPlasticity -> p_F (s_p s1) = p_F (s_p s0)).
Proof.
  intros G HG svd uabs af p sc s0 s1 n U Hdx Hm V W (F1 & F2 & F3 & F4) H GO Rg HU Ht HB U1. pose proof (geolaws G HG) as GL.
  destruct (wf_pack s0 n W) as (l & L & E & N & F). destruct (step_run svd uabs af p sc s0 s1 l V E N F H) as [Rn].
  rewrite E in *. unfold pack in Rg, HU, Ht, HB. cbn [p_x p_v p_tau p_B] in Rg, HU, Ht, HB.
  assert (Ca : forall q, In q l -> carries p U mzero q).
  { intros q Hq. split.
    - intros k Hk. rewrite (HU (q_v q)) by (now apply in_map). unfold fld. rewrite sumd_zero; [ring|]. intros; autorewrite with geo; ring.
    - intros Hf i j Hi Hj. rewrite (HB Hf (q_B q)) by (now apply in_map). autorewrite with geo. ring.
    - intros _ i j Hi Hj. now autorewrite with geo. }
  destruct (field_step svd uabs af p sc s0 s1 l V Rn Hdx GO Hm F1 F3 F4) with (c := U) (A := @mzero R _ G) as (l1 & -> & FF); auto.
  { intros q Hq. apply Rg. now apply in_map. }
  { intros Hs q Hq. apply off_lines_iff. apply (proj2 (Rg (q_x q) (in_map _ _ _ Hq)) Hs). }
  { intros q Hq. apply Ht. now apply in_map. }
  unfold pack. cbn [p_v p_x p_F]. rewrite !map_map. repeat split.
  - apply (F2_out _ _ _ _ _ _ FF).
    intros q q1 Hq (Hv & _). rewrite Hv, (HU (q_v q)) by (now apply in_map). reflexivity.
  - apply (F2_out _ _ _ _ _ _ FF).
    intros q q1 Hq (_ & Hx & _). rewrite Hx by auto. rewrite (HU (q_v q)) by (now apply in_map). reflexivity.
  - intros Hp. apply (F2_out _ _ _ _ _ _ FF).
    intros q q1 Hq (_ & _ & _ & h & h1 & cnt & ex & pl & Hpl & Epl). unfold plasticity, return_map in Hpl. rewrite Hp in Hpl. destruct (svd _) as [[? ?] ?]. cbv zeta in Hpl. cbn [bind] in Hpl. subst pl. injection Hpl as HF _ _ _ _. rewrite <- HF. cbn. apply F_trial_0; auto.
Qed.
Theorem C12_uniform_motion : forall (G : Geo R), two_or_three G -> forall svd uabs af p sc s0 s1 n (U : TV),
  0 < dx p -> 0 < particle_mass p -> valid_sched sc -> well_formed s0 n -> free_space p s0 ->
  advanceStep svd uabs af p sc s0 = Ok s1 -> GridOk p (s_axes s1) -> regular_cloud p (s_axes s1) (p_x (s_p s0)) ->
  (forall v, In v (p_v (s_p s0)) -> v = U) -> (forall t, In t (p_tau (s_p s0)) -> t = mzero) ->
  (flip_ratio p < 0 -> forall B, In B (p_B (s_p s0)) -> B = mzero) -> s_grav s1 = vzero ->
  p_v (s_p s1) = p_v (s_p s0) /\
  p_x (s_p s1) = map (fun x => vadd x (vscale U (s_dt s1))) (p_x (s_p s0)) /\
  (plastic_model p = NoPlasticity -> p_F (s_p s1) = p_F (s_p s0)).
Proof.
  intros G HG svd uabs af p sc s0 s1 n U Hdx Hm V W Fs H GO Rg HU Ht HB Hg. pose proof (geolaws G HG) as GL.
  destruct (C12_free_fall G HG svd uabs af p sc s0 s1 n U Hdx Hm V W Fs H GO Rg HU Ht HB) as (A1 & A2 & A3).
  assert (EU : vadd U (vscale (s_grav s1) (s_dt s1)) = U) by (rewrite Hg; apply vext; intros k Hk; autorewrite with geo; ring).
  rewrite EU in A1, A2. repeat split; auto. rewrite A1. rewrite <- (map_id (p_v (s_p s0))) at 2. apply map_ext_in. intros v Hv. symmetry. auto.
Qed.
(** Two particles with velocity (1,2), AFLIP with MUSL; the grid and the positions qualify. *)
Example C12_ex : forall svd uabs, exists af s1, let p := ex_p (-1/2) true 1000 vzero false in
  let s0 := ex_state p (two_particles (e2 1 2) (e2 1 2) mzero mzero mzero mzero) in
  advanceStep svd uabs af p rev_sched s0 = Ok s1 /\ free_space p s0 /\ GridOk p (s_axes s1) /\ regular_cloud p (s_axes s1) (p_x (s_p s0)) /\
  s_grav s1 = vzero /\ p_v (s_p s1) = [e2 1 2; e2 1 2].
Proof.
  intros. destruct (ex_mech svd uabs rev_sched (-1/2) true vzero (e2 1 2) (e2 1 2) mzero mzero mzero mzero rev_valid) as (af & s1 & E & Fs & GO & Rg & Hg).
  exists af, s1. cbv zeta. split; [exact E|]. split; [exact Fs|]. split; [exact GO|]. split; [exact Rg|]. split; [exact Hg|].
  apply (C12_uniform_motion _ (or_introl eq_refl) svd uabs af _ rev_sched _ s1 2 (e2 1 2) (ex_dx _ _ _ _ _) (ex_mass _ _ _ _ _) rev_valid (ex_wf _ _ _ _ _ _ _ _) Fs E GO Rg); auto.
  - intros v [<-|[<-|[]]]; reflexivity.
  - intros v [<-|[<-|[]]]; reflexivity.
  - intros _ v [<-|[<-|[]]]; reflexivity.
Qed.
Print Assumptions C12_free_fall.
Print Assumptions C12_uniform_motion.

(** ** C13 *)
(** Velocities v = c + A x, affine matrices A times the second moment of the spline, no stress.
    The field is kept (up to gravity), and the deformation gradient is advanced with gradient A. *)
Theorem C13_affine_fields : forall (G : Geo R), two_or_three G -> forall svd uabs af p sc s0 s1 n (c : TV) (A : TM),
  0 < dx p -> 0 < particle_mass p -> valid_sched sc -> well_formed s0 n -> free_space p s0 ->
  flip_ratio p < 0 -> spline p <> Deg1 ->
  advanceStep svd uabs af p sc s0 = Ok s1 -> GridOk p (s_axes s1) -> regular_cloud p (s_axes s1) (p_x (s_p s0)) ->
  p_v (s_p s0) = map (fun x => vadd c (mvec A x)) (p_x (s_p s0)) ->
  (forall B, In B (p_B (s_p s0)) -> B = mscale A (spline_inertia p)) -> (forall t, In t (p_tau (s_p s0)) -> t = mzero) ->
  p_v (s_p s1) = map (fun v => vadd v (vscale (s_grav s1) (s_dt s1))) (p_v (s_p s0)) /\
  p_x (s_p s1) = map (fun x => vadd x (vscale (vadd (vadd c (mvec A x)) (vscale (s_grav s1) (s_dt s1))) (s_dt s1))) (p_x (s_p s0)) /\
  p_B (s_p s1) = p_B (s_p s0) /\
  (plastic_model p = NoPlasticity -> p_F (s_p s1) = map (fun F => mmul (madd mident (mscale A (s_dt s1))) F) (p_F (s_p s0))).
Proof.
  intros G HG svd uabs af p sc s0 s1 n c A Hdx Hm V W (F1 & F2 & F3 & F4) Hf Hs H GO Rg HU HB Ht. pose proof (geolaws G HG) as GL.
  destruct (wf_pack s0 n W) as (l & L & E & N & F). destruct (step_run svd uabs af p sc s0 s1 l V E N F H) as [Rn].
  rewrite E in *. unfold pack in Rg, HU, Ht, HB. cbn [p_x p_v p_tau p_B] in Rg, HU, Ht, HB. rewrite map_map in HU.
  assert (HU' : forall q, In q l -> q_v q = vadd c (mvec A (q_x q))) by (exact (ext_in_map (f := q_v) (g := fun q => vadd c (mvec A (q_x q))) HU)).
  assert (HD : spline_inertia p * apicDinverse p = 1 /\ / apicDinverse p = spline_inertia p).
  { unfold spline_inertia, apicDinverse. destruct (spline p); [congruence| |]; rewrite nofZ_R; numR; split; field; lra. }
  assert (Ca : forall q, In q l -> carries p c A q).
  { intros q Hq. split.
    - intros k Hk. rewrite (HU' q Hq). autorewrite with geo. reflexivity.
    - intros _ i j Hi Hj. rewrite (HB (q_B q)) by (now apply in_map). autorewrite with geo. rewrite Rmult_assoc, (proj1 HD). ring.
    - lra. }
  destruct (field_step svd uabs af p sc s0 s1 l V Rn Hdx GO Hm F1 F3 F4) with (c := c) (A := A) as (l1 & -> & FF); auto.
  { intros q Hq. apply Rg. now apply in_map. }
  { intros Hs'. congruence. }
  { intros q Hq. apply Ht. now apply in_map. }
  unfold pack. cbn [p_v p_x p_F p_B]. rewrite !map_map. repeat split.
  - apply (F2_out _ _ _ _ _ _ FF).
    intros q q1 Hq (Hv & _). exact Hv.
  - apply (F2_out _ _ _ _ _ _ FF).
    intros q q1 Hq (_ & Hx & _). rewrite Hx by auto. now rewrite (HU' q Hq).
  - apply (F2_out _ _ _ _ _ _ FF).
    intros q q1 Hq (_ & _ & HBB & _). rewrite (HB (q_B q)) by (now apply in_map). apply mext. intros i j Hi Hj. rewrite HBB by auto. autorewrite with geo. rewrite (proj2 HD). reflexivity.
  - intros Hp. apply (F2_out _ _ _ _ _ _ FF).
    intros q q1 Hq (_ & _ & _ & h & h1 & cnt & ex & pl & Hpl & Epl). unfold plasticity, return_map in Hpl. rewrite Hp in Hpl. destruct (svd _) as [[? ?] ?]. cbv zeta in Hpl. cbn [bind] in Hpl. subst pl. injection Hpl as HF _ _ _ _. rewrite <- HF. cbn. unfold F_trial. rewrite mmul_add_l, mmul_id_l. do 2 f_equal. apply mext. intros i j Hi Hj. autorewrite with geo. numR. ring.
Qed.

(** Rotation about the origin, v = (-y,x), quadratic spline with dx = 1: B = A/4. *)
Example C13_ex : forall svd uabs, exists af s1, let p := ex_p (-2) false 1000 vzero false in let A := mkM2 0 (-1) 1 0 in
  let s0 := ex_state p (two_particles (e2 (-1/4) (1/2)) (e2 (-3/4) (-1/2)) (mkM2 0 (-1/4) (1/4) 0) (mkM2 0 (-1/4) (1/4) 0) mzero mzero) in
  advanceStep svd uabs af p rev_sched s0 = Ok s1 /\ free_space p s0 /\ GridOk p (s_axes s1) /\ regular_cloud p (s_axes s1) (p_x (s_p s0)) /\
  p_v (s_p s0) = map (fun x => vadd vzero (mvec A x)) (p_x (s_p s0)) /\
  (forall B, In B (p_B (s_p s0)) -> B = mscale A (spline_inertia p)) /\ p_v (s_p s1) = p_v (s_p s0).
Proof.
  intros. set (A := mkM2 0 (-1) 1 0).
  destruct (ex_mech svd uabs rev_sched (-2) false vzero (e2 (-1/4) (1/2)) (e2 (-3/4) (-1/2)) (mkM2 0 (-1/4) (1/4) 0) (mkM2 0 (-1/4) (1/4) 0) mzero mzero rev_valid) as (af & s1 & E & Fs & GO & Rg & Hg).
  assert (Hv : [e2 (-1/4) (1/2); e2 (-3/4) (-1/2)] = map (fun x => vadd vzero (mvec (G := Geo2 R) A x)) [e2 (1/2) (1/4); e2 (-1/2) (3/4)]).
  { cbn [map]. f_equal; [|f_equal]; apply (vext (GeoLaws := geolaws _ (or_introl eq_refl))); intros [|[|k]] Hk; cbn in Hk |- *; try lia; lra. }
  assert (HB : forall B, In B [mkM2 0 (-1/4) (1/4) 0; mkM2 0 (-1/4) (1/4) 0] -> B = mscale (G := Geo2 R) A (spline_inertia (ex_p (-2) false 1000 vzero false))).
  { intros B [<-|[<-|[]]]; apply (mext (GeoLaws := geolaws _ (or_introl eq_refl))); intros [|[|i]] [|[|j]] Hi Hj; cbn in Hi, Hj |- *; try lia; lra. }
  exists af, s1. cbv zeta. split; [exact E|]. split; [exact Fs|]. split; [exact GO|]. split; [exact Rg|]. split; [exact Hv|]. split; [exact HB|].
  destruct (C13_affine_fields _ (or_introl eq_refl) svd uabs af _ rev_sched _ s1 2 vzero A (ex_dx _ _ _ _ _) (ex_mass _ _ _ _ _) rev_valid (ex_wf _ _ _ _ _ _ _ _) Fs ltac:(cbn; lra) ltac:(discriminate) E GO Rg Hv HB) as (R1 & _).
  - intros v [<-|[<-|[]]]; reflexivity.
  - rewrite R1, Hg. rewrite <- (map_id (p_v _)) at 2. apply map_ext. intros v. apply (vext (GeoLaws := geolaws _ (or_introl eq_refl))). intros k Hk. rewrite (vget_add (GL := geolaws _ (or_introl eq_refl))), (vget_scale (GL := geolaws _ (or_introl eq_refl))), (vget_zero (GL := geolaws _ (or_introl eq_refl))) by auto. ring.
Qed.
Print Assumptions C13_affine_fields.

(** ** C14 *)
Theorem C14_momentum_balance : forall (G : Geo R), two_or_three G -> forall svd uabs af p sc s0 s1 n,
  0 < dx p -> 0 < particle_mass p -> valid_sched sc -> well_formed s0 n ->
  use_pbc p = false -> objects p = [] -> s_plates s0 = [] ->
  advanceStep svd uabs af p sc s0 = Ok s1 -> GridOk p (s_axes s1) -> regular_cloud p (s_axes s1) (p_x (s_p s0)) ->
  forall k, (k < dim)%nat ->
  Rsum (fun v => particle_mass p * vget v k) (p_v (s_p s1)) =
  Rsum (fun v => particle_mass p * vget v k) (p_v (s_p s0)) + (INR n * particle_mass p) * vget (s_grav s1) k * s_dt s1.
Proof.
  intros G HG svd uabs af p sc s0 s1 n Hdx Hm V W F1 F3 F4 H GO Rg k Hk. pose proof (geolaws G HG) as GL.
  destruct (wf_pack s0 n W) as (l & L & E & N & F). destruct (step_run svd uabs af p sc s0 s1 l V E N F H) as [Rn].
  rewrite !Rsum_scal. rewrite (momentum svd uabs af p sc s0 s1 l V Rn Hdx GO Hm F1 F3 F4); auto; [rewrite L; ring| |].
  - intros q Hq. apply Rg. rewrite E. unfold pack; cbn [p_x]. now apply in_map.
  - intros Hs q Hq. apply off_lines_iff. refine (proj2 (Rg (q_x q) _) Hs). rewrite E. unfold pack; cbn [p_x]. now apply in_map.
Qed.
(** Different velocities, affine matrices and stresses; gravity (0,-10). *)
Example C14_ex : forall svd uabs, exists af s1, let p := ex_p (95/100) true 1000 (e2 0 (-10)) false in
  let s0 := ex_state p (two_particles (e2 1 2) (e2 (-3) 4) mident mident (mkM2 5 1 1 7) (mkM2 (-2) 0 0 3)) in
  advanceStep svd uabs af p rev_sched s0 = Ok s1 /\ free_space p s0 /\ GridOk p (s_axes s1) /\ regular_cloud p (s_axes s1) (p_x (s_p s0)) /\
  Rsum (fun v => 1 * vget v 1) (p_v (s_p s1)) = 6 + 2 * -10 * s_dt s1.
Proof.
  intros. destruct (ex_mech svd uabs rev_sched (95/100) true (e2 0 (-10)) (e2 1 2) (e2 (-3) 4) mident mident (mkM2 5 1 1 7) (mkM2 (-2) 0 0 3) rev_valid) as (af & s1 & E & Fs & GO & Rg & Hg).
  exists af, s1. cbv zeta. split; [exact E|]. split; [exact Fs|]. split; [exact GO|]. split; [exact Rg|].
  pose proof (C14_momentum_balance _ (or_introl eq_refl) svd uabs af _ rev_sched _ s1 2 (ex_dx _ _ _ _ _) (ex_mass _ _ _ _ _) rev_valid (ex_wf _ _ _ _ _ _ _ _) eq_refl eq_refl eq_refl E GO Rg 1%nat ltac:(cbn; lia)) as M.
  rewrite Hg in M. cbn [particle_mass ex_p] in M. rewrite M. cbn. lra.
Qed.
Print Assumptions C14_momentum_balance.

(** ** C15 *)
(** [before], [after]: the grid before and after the grid update.  Also with periodic boundaries and
    obstacles, and for every schedule; the same formula for USL and MUSL. *)
Theorem C15_velocity_blend : forall (G : Geo R), two_or_three G -> forall svd uabs af p sc s0 s1 n,
  0 < dx p -> valid_sched sc -> well_formed s0 n ->
  advanceStep svd uabs af p sc s0 = Ok s1 -> GridOk p (s_axes s1) ->
  exists P before after, (use_pbc p = false -> P = s_p s0) /\
    p2g p (s_axes s1) P (sc_p2g sc (length (p_x P))) (resizeGrid (s_axes s1)) = Ok before /\
    euler p (s_plates s0) (s_dt s1) (s_grav s1) (s_axes s1) (sc_euler sc (Z.to_nat (grid_nodes (s_axes s1)))) before = Ok after /\
    forall i x v x1 v1, nth_error (p_x (s_p s0)) i = Some x -> nth_error (p_v (s_p s0)) i = Some v ->
      nth_error (p_x (s_p s1)) i = Some x1 -> nth_error (p_v (s_p s1)) i = Some v1 ->
      exists items, stencil base_g2p p (s_axes s1) x = Ok items /\
        (forall k, (k < dim)%nat -> vget v1 k =
           blend (flip_ratio p) (vget v k) (mean (fun it => node_v after it k - node_v before it k) items) (mean (fun it => node_v after it k) items)) /\
        (use_pbc p = false -> change_pos p = false -> forall k, (k < dim)%nat -> vget x1 k = vget x k + s_dt s1 * mean (fun it => node_v after it k) items).
Proof.
  intros G HG svd uabs af p sc s0 s1 n Hdx V W H GO. pose proof (geolaws G HG) as GL.
  destruct (wf_pack s0 n W) as (l & L & E & N & F). destruct (step_run svd uabs af p sc s0 s1 l V E N F H) as [Rn].
  destruct (blended svd uabs af p sc s0 s1 l V Rn Hdx GO E) as (P & b & a & B1 & B2 & B3 & B4). exists P, b, a. repeat split; auto.
  intros i x v x1 v1 H1 H2 H3 H4. destruct (B4 i x v x1 v1 H1 H2 H3 H4) as (it & I1 & I2 & I3 & _). exists it. auto.
Qed.
(** The named special cases of the blend. *)
Theorem C15_special_cases : forall v dv pic, blend 0 v dv pic = pic /\ blend 1 v dv pic = v + dv /\ blend (-1) v dv pic = v + dv /\ forall flip, flip < -1 -> blend flip v dv pic = pic.
Proof. intros. unfold blend. repeat split; intros; repeat destruct (Rlt_dec _ _); lra. Qed.
Example C15_ex : forall svd uabs, exists af s1, let p := ex_p (95/100) true 1000 (e2 0 (-10)) false in
  let s0 := ex_state p (two_particles (e2 1 2) (e2 (-3) 4) mident mident (mkM2 5 1 1 7) (mkM2 (-2) 0 0 3)) in
  0 < dx p /\ valid_sched rev_sched /\ well_formed s0 2 /\ advanceStep svd uabs af p rev_sched s0 = Ok s1 /\ GridOk p (s_axes s1).
Proof.
  intros. destruct (ex_mech svd uabs rev_sched (95/100) true (e2 0 (-10)) (e2 1 2) (e2 (-3) 4) mident mident (mkM2 5 1 1 7) (mkM2 (-2) 0 0 3) rev_valid) as (af & s1 & E & Fs & GO & Rg & Hg).
  exists af, s1. cbv zeta. split; [cbn; lra|]. split; [exact rev_valid|]. split; [apply ex_wf|]. auto.
Qed.
Print Assumptions C15_velocity_blend.
Print Assumptions C15_special_cases.

(** ** C51 *)
(** In every arithmetic, binary64 included. *)
Theorem C51_step_keeps_arrays : forall {A : Type} {NA : Num A} (G : Geo A) svd uabs af p sc s0 s1 n,
  valid_sched sc -> well_formed s0 n -> advanceStep svd uabs af p sc s0 = Ok s1 -> well_formed s1 n.
Proof. intros A NA G svd uabs af p sc s0 s1 n. exact (wf_step svd uabs af p sc s0 s1 n). Qed.

Section Loop.
  Context {Ar : Type} {NA : Num Ar} {G : Geo Ar}.
  Variable svd : TM -> TM * TV * TM.
  Variable uabs : Ar -> Ar.
  Variable I : St Ar -> Prop.
  Definition ev_ok (e : Ev Ar) : Prop := match e with EvParticles s | EvGrid s => I s | EvInfo | EvTiming _ => True end.
  Lemma save_ok : forall p s, I s -> Forall ev_ok (save_frame p s).
  Proof. intros p s H. unfold save_frame. destruct (save_sim p); [|constructor]. destruct (save_grid p); repeat constructor; auto. Qed.
  (** An invariant of steps and of the clock holds in every saved state and at the end. *)
  Lemma loop_inv : forall af p sch, (forall k s s1, I s -> advanceStep svd uabs af p (sch k) s = Ok s1 -> I s1) -> (forall s, I s -> I (tick p s)) ->
    forall fuel k s st s' ev, I s -> sim_loop svd uabs fuel af p sch k s = Ok (st, s', ev) -> I s' /\ Forall ev_ok ev.
  Proof.
    intros af p sch HS HT. induction fuel as [|fuel IH]; intros k s st s' ev Hs H; cbn [sim_loop] in H; destruct (s_frame s <? end_frame p)%Z.
    1: discriminate. 1, 3: injection H as <- <- <-; split; [auto|constructor].
    apply bind_Ok in H. destruct H as (s1 & E & H). pose proof (HS _ _ _ Hs E) as I1. destruct (s_exit s1) eqn:Ex; [injection H as <- <- <-; split; [auto|constructor]|].
    cbv zeta in H. pose proof (HT _ I1) as I2.
    assert (C1 : Forall ev_ok (if (s_frame (tick p s1) =? s_frame s1)%Z then [] else save_frame p (tick p s1))).
    { destruct (_ =? _)%Z; [constructor|now apply save_ok]. }
    destruct (at_end p (tick p s1)).
    - injection H as <- <- <-. split; [auto|]. apply Forall_app. split; [auto|now apply save_ok].
    - apply bind_Ok in H. destruct H as ([[st2 s2] ev2] & E2 & H). cbn [fst snd] in H. injection H as <- <- <-.
      destruct (IH _ _ _ _ _ I2 E2) as (C2 & D). split; [auto|]. apply Forall_app. auto.
  Qed.
End Loop.
Lemma wf_tick : forall {A : Type} {NA : Num A} (G : Geo A) p (s : St A) n, well_formed s n -> well_formed (tick p s) n.
Proof. intros A NA G p s n W. unfold tick. cbv zeta. destruct (nltb _ _); exact W. Qed.
Lemma wf_start : forall {A : Type} {NA : Num A} (G : Geo A) p (s : St A) n, well_formed s n -> well_formed (sim_start p s) n.
Proof.
  intros A NA G p s n (C & N & F). split; [|split; [exact N|exact F]]. unfold sim_start, fill_muI. cbn [s_p]. destruct (use_mibf p); [|exact C].
  destruct C. split; cbn; rewrite ?map_length; auto.
Qed.
(** Whole simulations: every state written to a file, and the final one. *)
Theorem C51_simulation_keeps_arrays : forall {A : Type} {NA : Num A} (G : Geo A) svd uabs fuel af p init sch s0 n st s1 ev,
  (forall k, valid_sched (sch k)) -> well_formed s0 n -> simulate svd uabs fuel af p init sch s0 = Ok (st, s1, ev) ->
  well_formed s1 n /\ forall s, In (EvParticles s) ev \/ In (EvGrid s) ev -> well_formed s n.
Proof.
  intros A NA G svd uabs fuel af p init sch s0 n st s1 ev V W H.
  destruct (sim_cases svd uabs _ _ _ _ _ _ _ _ _ H) as [(_ & -> & ->)|(ev1 & L & ->)].
  { split; [auto|]. intros s [[]|[]]. }
  pose proof (wf_start _ p s0 n W) as W1.
  destruct (loop_inv svd uabs (fun s => well_formed s n) af p sch (fun k s s' Ws E => C51_step_keeps_arrays G svd uabs af p (sch k) s s' n (V k) Ws E)
     (fun s Ws => wf_tick G p s n Ws) _ _ _ _ _ _ W1 L) as (W2 & Fo).
  - split; [auto|]. rewrite Forall_forall in Fo.
    assert (K : forall e, In e ((if save_sim p then [EvInfo; EvParticles (sim_start p s0)] else []) ++ ev1 ++
       match st with Finished => if save_sim p then [EvTiming (s_step s1)] else [] | _ => [] end) -> ev_ok (fun s => well_formed s n) e).
    { intros e He. apply in_app_or in He. destruct He as [He|He].
      - destruct (save_sim p); [|destruct He]. destruct He as [<-|[<-|[]]]; cbn; auto.
      - apply in_app_or in He. destruct He as [He|He]; [now apply Fo|]. destruct st; try destruct He. destruct (save_sim p); [|destruct He]. destruct He as [<-|[]]. exact I. }
    intros s [He|He]; exact (K _ He).
Qed.
Example C51_ex : forall svd uabs, let p := ex_p (-1) true 1000 (e2 0 (-10)) true in exists af s1 ev,
  simulate svd uabs 1 af p true (fun _ => rev_sched) (ex_state p at_rest) = Ok (Finished, s1, ev) /\ well_formed (ex_state p at_rest) 2.
Proof.
  intros. destruct (ex_sim svd uabs (fun _ => rev_sched) (-1) true (e2 0 (-10)) true (fun _ => rev_valid)) as (af & H). destruct (H af 0%nat (le_n _)) as (s1 & s' & ev & _ & _ & _ & E).
  exists af, s', ev. split; [exact E|]. apply ex_wf.
Qed.
Print Assumptions C51_step_keeps_arrays.
Print Assumptions C51_simulation_keeps_arrays.

(** ** C53 *)
(** No out-of-range access, no overflow and no uninitialised read in a whole step, whenever the grid
    made by the remesher is usable and covers the particles (and their periodic images). *)
Theorem C53_step_is_safe : forall (G : Geo R), two_or_three G -> forall svd uabs af p sc s0 n s1 s2,
  0 < dx p -> valid_sched sc -> well_formed s0 n -> obstacles_defined p -> material_defined svd uabs p ->
  (use_pbc p = true -> use_mibf p = false) ->
  updateDt p s0 = Ok s1 -> remesh af p s1 = Ok s2 -> GridOk p (s_axes s2) ->
  (forall x, In x (p_x (s_p s0)) -> in_grid p (s_axes s2) x) ->
  (use_pbc p = true -> forall x x', In x (p_x (s_p s0)) -> pbc_image p 4 x = Some x' -> in_grid p (s_axes s2) x') ->
  exists s', advanceStep svd uabs af p sc s0 = Ok s'.
Proof. intros G HG. pose proof (geolaws G HG). apply step_safe. Qed.
(** The first step of a simulation, from the user's data only. *)
Theorem C53_first_step_is_safe : forall (G : Geo R), two_or_three G -> forall svd uabs p sc s0 n,
  0 < dx p -> use_pbc p = false -> valid_sched sc -> well_formed s0 n -> (0 < n)%nat -> s_step s0 = 0%Z ->
  obstacles_defined p -> material_defined svd uabs p ->
  (forall x k, In x (p_x (s_p s0)) -> (k < dim)%nat -> Rabs (vget x k) <= 100 * dx p) ->
  (forall k, (k < dim)%nat -> vget (grid_ref p) 0 < 10000000000 -> Rabs (vget (grid_ref p) k) <= 100 * dx p) ->
  exists af0, forall af, (af0 <= af)%nat -> exists s1, advanceStep svd uabs af p sc s0 = Ok s1 /\ GridOk p (s_axes s1) /\
    forall x, In x (p_x (s_p s0)) -> in_grid p (s_axes s1) x.
Proof. intros G HG. pose proof (geolaws G HG). apply first_step. Qed.
Example C53_ex : forall svd uabs, let p := ex_p (-1) true 1000 (e2 0 (-10)) true in let s0 := ex_state p at_rest in
  0 < dx p /\ well_formed s0 2 /\ s_step s0 = 0%Z /\ obstacles_defined p /\ material_defined svd uabs p /\
  (forall x k, In x (p_x (s_p s0)) -> (k < 2)%nat -> Rabs (vget x k) <= 100 * dx p) /\ ~ vget (grid_ref p) 0 < 10000000000.
Proof.
  intros. split; [cbn; lra|]. split; [apply ex_wf|]. split; [reflexivity|]. split; [now apply no_obstacles|]. split; [now apply no_plasticity|]. split; [|cbn; lra].
  intros x k [<-|[<-|[]]] Hk; destruct k as [|[|k]]; cbn in Hk |- *; try lia; unfold Rabs; destruct (Rcase_abs _); lra.
Qed.
Print Assumptions C53_step_is_safe.
Print Assumptions C53_first_step_is_safe.
