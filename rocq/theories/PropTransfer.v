(** * Properties C08-C11 and C16: particle-to-grid transfer. *)
From Coq Require Import Reals ZArith Lra Lia List Bool Permutation Floats.SpecFloat.
From Flocq Require Import Core.Raux.
From Verif Require Import Num NumR NumF Tools Lin Types Remesh Objects Transfer Save Spec LinProofs ResProofs
  KernelProofs GridProofs StencilProofs IndexProofs GradProofs AccumProofs P2GProofs ConsProofs MuslProofs
  Examples ExamplesF RemeshExamples PropGrid.
Import ListNotations.
Local Open Scope R_scope.

(** A concrete cloud on the 5x5 grid: two particles with different velocities and affine matrices. *)
Definition ex_cloud : @Particles R (Geo2 R) :=
  mkParticles (G := Geo2 R) [pt (1/2) (1/4); pt (-1/2) (3/4)] [pt 1 2; pt 3 (-1)] [pt 0 0; pt 0 0] [pt 0 0; pt 0 0]
    [mkHist 0 0 0 0 0 (1/2); mkHist 0 0 0 0 0 (1/4)] [mident; mident] [mident; mkM2 0 1 (-1) 0] [mzero; mzero].
Lemma ex_consistent : consistent ex_cloud 2.
Proof. now split. Qed.
Lemma ex_cloud_in : forall x, In x (p_x ex_cloud) -> in_grid ep [ax5; ax5] x.
Proof. intros x [<-|[<-|[]]]; apply ex_in_grid; lra. Qed.
Lemma ex_sched : thread_schedule [[1]; []; [0]]%nat 2.
Proof. unfold thread_schedule. simpl. constructor. Qed.


(** ** C08 *)
Theorem C08_mass_conservation : forall (G : Geo R), two_or_three G ->
  forall p axes (P : Particles R) n sched, 0 < dx p -> 0 <= particle_mass p ->
  GridOk p axes -> consistent P n -> (forall x, In x (p_x P) -> in_grid p axes x) -> thread_schedule sched n ->
  exists nodes, p2g p axes P sched (resizeGrid axes) = Ok nodes /\
    Rabs (Rsum (fun nd => nd_m nd) nodes - INR n * particle_mass p)
      <= INR n * (INR (4 ^ dim) * (1 / 10000000000000000000000000) * particle_mass p) /\
    ((forall x, In x (p_x P) -> no_tiny_weights p axes x) ->
     Rsum (fun nd => nd_m nd) nodes = INR n * particle_mass p) /\
    checkMass p nodes (Z.of_nat n) = false.
Proof.
  intros G HG p axes P n sched Hdx Hm GO Co IG Sc. pose proof (geolaws G HG) as GL.
  destruct (p2g_run p Hdx axes P n sched GO Co IG Sc) as (ds & nd0 & _ & _ & _ & _ & _ & _ & _ & _ & E & _).
  exists (map (p2g_finish_node p) nd0). split; auto.
  pose proof (p2g_mass p Hdx axes P n sched _ GO Co IG Sc E) as M. rewrite M.
  set (s := Rsum (fun x => lost p axes x (fun _ => 1)) (p_x P)) in *.
  assert (B : 0 <= s <= INR n * (INR (4 ^ dim) * (1 / 10000000000000000000000000))).
  { rewrite <- (co_x _ _ Co), <- (Rsum_const _). split.
    - unfold s. apply Rsum_nonneg. intros x Hx. apply lost_sign; auto. apply in_grid_covered; auto.
    - unfold s. apply Rsum_le. intros x Hx. rewrite <- wmin_val.
      pose proof (lost_bound p Hdx axes x (fun _ => 1) 1 GO (proj1 (in_grid_covered p Hdx axes x) (IG x Hx))) as Q.
      rewrite Rmult_1_r in Q. eapply Rle_trans; [apply Rle_abs|apply Q]. intros. rewrite Rabs_R1. lra. }
  assert (Hb : Rabs (particle_mass p * (INR n - s) - INR n * particle_mass p) = s * particle_mass p).
  { replace (particle_mass p * (INR n - s) - INR n * particle_mass p) with (- (s * particle_mass p)) by ring.
    rewrite Rabs_Ropp. apply Rabs_pos_eq. nra. }
  split; [|split].
  - rewrite Hb. rewrite <- Rmult_assoc. apply Rmult_le_compat_r; lra.
  - intros T. assert (s = 0).
    { unfold s. apply Rsum_zero. intros x Hx. apply lost_exact; auto. apply in_grid_covered; auto. }
    rewrite H. ring.
  - unfold checkMass. rewrite Rsum_nsum, Rsum_map, M, nofZ_R. numR. rewrite <- INR_IZR_INZ.
    apply Rltb_false. rewrite (Rmult_comm (particle_mass p) (INR n)), Hb.
    assert (INR (4 ^ dim) <= 64).
    { destruct HG as [->| ->]; cbn [dim Geo2 Geo3 Nat.pow Nat.mul Nat.add INR]; lra. }
    assert (0 <= INR n) by apply pos_INR.
    assert (s <= INR n * (1 / 10000000000)) by (destruct B; nra).
    replace (1 / 10000000000 * (INR n * particle_mass p)) with ((INR n * (1 / 10000000000)) * particle_mass p) by ring.
    apply Rmult_le_compat_r; auto.
Qed.
Print Assumptions C08_mass_conservation.
Example C08_applies : exists nodes, p2g ep [ax5; ax5] ex_cloud [[1]; []; [0]]%nat (resizeGrid [ax5; ax5]) = Ok nodes /\
  checkMass ep nodes 2 = false.
Proof.
  destruct (C08_mass_conservation (Geo2 R) (or_introl eq_refl) ep [ax5; ax5] ex_cloud 2 [[1]; []; [0]]%nat) as (nodes & E & _ & _ & K);
    [change (dx ep) with 1; lra|change (particle_mass ep) with 1; lra|apply ex_grid_ok|apply ex_consistent|apply ex_cloud_in|apply ex_sched|].
  eauto.
Qed.

(** ** C09 *)
(** Total momentum in direction k, up to what the 1e-25 weight threshold cuts off.  The affine part
    is only transferred when flip_ratio < 0. *)
Theorem C09_momentum_conservation : forall (G : Geo R), two_or_three G ->
  forall p axes (P : Particles R) n sched nodes k, 0 < dx p -> 0 <= particle_mass p ->
  GridOk p axes -> consistent P n -> (forall x, In x (p_x P) -> in_grid p axes x) -> thread_schedule sched n -> (k < dim)%nat ->
  p2g p axes P sched (resizeGrid axes) = Ok nodes ->
  Rabs (Rsum (fun nd => nd_m nd * vget (nd_v nd) k) nodes - particle_mass p * Rsum (fun v => vget v k) (p_v P))
    <= particle_mass p * (INR (4 ^ dim) * (1 / 10000000000000000000000000)
         * (Rsum (fun v => Rabs (vget v k)) (p_v P)
            + if Rlt_dec (flip_ratio p) 0
              then apicDinverse p * (2 * dx p) * Rsum (fun B => Rsum (fun l => Rabs (mget B k l)) (seq 0 dim)) (p_B P)
              else 0)) /\
  ((forall x, In x (p_x P) -> no_tiny_weights p axes x) ->
   Rsum (fun nd => nd_m nd * vget (nd_v nd) k) nodes = particle_mass p * Rsum (fun v => vget v k) (p_v P)).
Proof.
  intros G HG p axes P n sched nodes k Hdx Hm GO Co IG Sc Hk E. pose proof (geolaws G HG) as GL.
  destruct (p2g_momentum p Hdx axes P n sched nodes k GO Co IG Sc Hk E) as (ds & Ld & X & V & B & C & M). rewrite M.
  set (s := Rsum (fun d => lost p axes (d_x d) (fun it => vget (d_v d) k + affine p d it k)) ds).
  replace (particle_mass p * (Rsum (fun v => vget v k) (p_v P) - s) - particle_mass p * Rsum (fun v => vget v k) (p_v P))
    with (- (particle_mass p * s)) by ring.
  split.
  - rewrite Rabs_Ropp, Rabs_mult, (Rabs_pos_eq (particle_mass p)) by auto. apply Rmult_le_compat_l; auto.
    unfold s. eapply Rle_trans; [apply Rabs_Rsum|].
    set (h := fun d : PD => if Rltb (flip_ratio p) 0 then apicDinverse p * (2 * dx p) * sumd (fun l => Rabs (mget (d_B d) k l)) else 0).
    apply Rle_trans with (Rsum (fun d => INR (4 ^ dim) * (w_min * (Rabs (vget (d_v d) k) + h d))) ds).
    + apply Rsum_le. intros d Hd. apply lost_bound; auto. intros it Hit.
      eapply Rle_trans; [apply Rabs_triang|]. apply Rplus_le_compat_l. apply (affine_bound p Hdx axes); auto.
    + rewrite (Rsum_ext _ (fun d => (INR (4 ^ dim) * w_min) * (Rabs (vget (d_v d) k) + h d))) by (intros; ring).
      rewrite Rsum_scal, Rsum_plus, wmin_val. apply Rmult_le_compat_l.
      * apply Rmult_le_pos; [apply pos_INR|lra].
      * rewrite <- V, Rsum_map. apply Rplus_le_compat_l. unfold h.
        destruct (Rlt_dec (flip_ratio p) 0) as [Hf|Hf]; destruct (Rltb_spec (flip_ratio p) 0); try lra.
        -- rewrite Rsum_scal, <- (B Hf), Rsum_map. apply Req_le. f_equal. apply Rsum_ext. intros. apply sumd_Rsum.
        -- rewrite Rsum_zero; [lra|auto].
  - intros T. assert (s = 0).
    { unfold s. apply Rsum_zero. intros d Hd. apply lost_exact; auto. apply T. rewrite <- X. now apply in_map. }
    rewrite H. ring.
Qed.
Print Assumptions C09_momentum_conservation.

(** The built-in check accepts every transfer without cut-off contributions. *)
Lemma fold_vadd_get : forall (G : Geo R), two_or_three G -> forall X (f : X -> TV) l a k, (k < dim)%nat ->
  vget (fold_left (fun a x => vadd a (f x)) l a) k = vget a k + Rsum (fun x => vget (f x) k) l.
Proof.
  intros G HG X f l. pose proof (geolaws G HG). induction l; intros b k Hk; simpl; [lra|]. rewrite IHl by auto.
  autorewrite with geo. numR. lra.
Qed.
Theorem C09_check_accepts : forall (G : Geo R), two_or_three G ->
  forall p axes (P : Particles R) n sched nodes, 0 < dx p -> 0 <= particle_mass p ->
  GridOk p axes -> consistent P n -> (forall x, In x (p_x P) -> in_grid p axes x) -> thread_schedule sched n ->
  (forall x, In x (p_x P) -> no_tiny_weights p axes x) ->
  p2g p axes P sched (resizeGrid axes) = Ok nodes -> checkMomentum p nodes (p_v P) = false.
Proof.
  intros G HG p axes P n sched nodes Hdx Hm GO Co IG Sc T E. pose proof (geolaws G HG) as GL.
  unfold checkMomentum. numR. apply Rltb_false.
  assert (Q : vsub (grid_momentum nodes) (particle_momentum p (p_v P)) = vzero).
  { apply vext. intros k Hk. autorewrite with geo. numR. unfold grid_momentum, particle_momentum.
    rewrite !fold_vadd_get by auto. autorewrite with geo.
    rewrite (Rsum_ext (fun x => vget (lscale (nd_m x) (nd_v x)) k) (fun nd => nd_m nd * vget (nd_v nd) k)) by (intros; now autorewrite with geo).
    rewrite (Rsum_ext (fun x => vget (lscale (particle_mass p) x) k) (fun v => particle_mass p * vget v k)) by (intros; now autorewrite with geo).
    rewrite Rsum_scal. destruct (C09_momentum_conservation G HG p axes P n sched nodes k Hdx Hm GO Co IG Sc Hk E) as (_ & ->); auto. lra. }
  rewrite Q, vnorm_zero. apply Rmult_le_pos; [lra|apply vnorm_nonneg].
Qed.
Print Assumptions C09_check_accepts.
Example C09_applies : exists nodes, p2g ep [ax5; ax5] ex_cloud [[1]; []; [0]]%nat (resizeGrid [ax5; ax5]) = Ok nodes /\
  Rabs (Rsum (fun nd => nd_m nd * vget (nd_v nd) 0) nodes - 4) <= 1 / 10000000000000.
Proof.
  assert (HG : two_or_three (Geo2 R)) by (left; reflexivity).
  destruct (C08_mass_conservation (Geo2 R) HG ep [ax5; ax5] ex_cloud 2 [[1]; []; [0]]%nat) as (nodes & E & _);
    [change (dx ep) with 1; lra|change (particle_mass ep) with 1; lra|apply ex_grid_ok|apply ex_consistent|apply ex_cloud_in|apply ex_sched|].
  exists nodes. split; auto.
  destruct (C09_momentum_conservation (Geo2 R) HG ep [ax5; ax5] ex_cloud 2 [[1]; []; [0]]%nat nodes 0) as (K & _); auto;
    [change (dx ep) with 1; lra|change (particle_mass ep) with 1; lra|apply ex_grid_ok|apply ex_consistent|apply ex_cloud_in|apply ex_sched|simpl; lia|].
  change (particle_mass ep) with 1 in K. change (flip_ratio ep) with (-95/100) in K. change (dx ep) with 1 in K.
  unfold apicDinverse in K. change (spline ep) with Deg2 in K. change (dx ep) with 1 in K. rewrite nofZ_R in K. revert K. numR. intros K.
  destruct (Rlt_dec (-95/100) 0); [|lra].
  assert (S1 : Rsum (fun v : @TV R (Geo2 R) => vget v 0) (p_v ex_cloud) = 4) by (cbv -[Rplus IZR]; lra).
  assert (S2 : Rsum (fun v : @TV R (Geo2 R) => Rabs (vget v 0)) (p_v ex_cloud) = 4).
  { cbn. rewrite Rabs_R1, (Rabs_pos_eq 3) by lra. lra. }
  assert (S3 : Rsum (fun B : @TM R (Geo2 R) => Rsum (fun l => Rabs (mget B 0 l)) (seq 0 (dim (A := R) (Geo := Geo2 R)))) (p_B ex_cloud) = 2).
  { cbn. numR. cbn. replace (1 / 1) with 1 by lra; replace (0 / 1) with 0 by lra; rewrite ?Rabs_R1, ?Rabs_R0. lra. }
  rewrite S1, S2, S3 in K. replace (INR (4 ^ @dim R (Geo2 R))) with 16 in K by (cbn; lra).
  replace (1 * 4) with 4 in K by lra. eapply Rle_trans; [apply K|]. rewrite ?nofZ_R. replace (4 / (1 * 1)) with 4 by field. lra.
Qed.

(** ** C10 *)
(** [s1] and [s2] are two distributions of the same iterations over threads: any number of threads,
    any assignment, any order of execution and of entering the critical section.  The results are
    equal, including whether the transfer is undefined; no assumption on the particles or grid. *)
Theorem C10_schedule_independent : forall (G : Geo R), two_or_three G ->
  forall p axes (P : Particles R) s1 s2 nodes, Permutation (concat s1) (concat s2) ->
  p2g p axes P s1 nodes = p2g p axes P s2 nodes /\ musl_grid p axes P s1 nodes = musl_grid p axes P s2 nodes.
Proof.
  intros G HG p axes P s1 s2 nodes H. pose proof (geolaws G HG) as GL.
  split; [now apply p2g_sched_indep|now apply musl_sched_indep].
Qed.
Print Assumptions C10_schedule_independent.
Example C10_applies : Permutation (concat [[0; 3]; [1; 2]])%nat (concat [[2]; [3; 1; 0]])%nat.
Proof.
  apply NoDup_Permutation; [repeat constructor; simpl; intuition lia|repeat constructor; simpl; intuition lia|].
  intros x. simpl. tauto.
Qed.

(** In binary64 the same property fails, for every libm: two runs with the same input differ. *)
Theorem C10_binary64_refuted : forall L : Libm,
  exists (p : @Par F (Geo2 F)) axes (P : @Particles F (Geo2 F)) s1 s2 n1 n2,
  Permutation (concat s1) (concat s2) /\
  p2g (NA := NumF L) p axes P s1 (resizeGrid (NA := NumF L) axes) = Ok n1 /\
  p2g (NA := NumF L) p axes P s2 (resizeGrid (NA := NumF L) axes) = Ok n2 /\ n1 <> n2.
Proof.
  intros L. exists (fpar L false), (axf L), (three L), [[0]; [1]; [2]]%nat, [[0]; [1; 2]]%nat.
  destruct (orders_differ L) as (n1 & n2 & Q). exists n1, n2. split; [apply Permutation_refl|exact Q].
Qed.
Print Assumptions C10_binary64_refuted.

(** ** C11 *)
(** Node [j] is touched by a particle at [x]: it is in the particle's stencil with positive weight. *)
Definition touches {G : Geo R} (p : Par R) (axes : list (Axis R)) (x : TV) (j : nat) : Prop :=
  exists items it, stencil base_p2g p axes x = Ok items /\ In it items /\ it_idx it = Z.of_nat j /\ 0 < it_w it.
(** [a] are the coefficients of a convex combination of the particles that touch node [j]. *)
Definition average_coeffs {G : Geo R} (p : Par R) (axes : list (Axis R)) (P : Particles R) (j : nat) (a : list R) : Prop :=
  length a = length (p_x P) /\ (forall y, In y a -> 0 <= y) /\ Rsum (fun y => y) a = 1 /\
  (forall i y x, nth_error a i = Some y -> nth_error (p_x P) i = Some x -> y <> 0 -> touches p axes x j).
(** Weighted sum. *)
Definition wsum (a b : list R) : R := Rsum (fun ab => fst ab * snd ab) (combine a b).

Lemma convex_touch : forall (a b : list R) lo hi, length a = length b -> (forall y, In y a -> 0 <= y) -> Rsum (fun y => y) a = 1 ->
  (forall i y z, nth_error a i = Some y -> nth_error b i = Some z -> y <> 0 -> lo <= z <= hi) -> lo <= wsum a b <= hi.
Proof.
  intros a b lo hi L Ha S B.
  assert (Q : lo * Rsum (fun y => y) a <= wsum a b <= hi * Rsum (fun y => y) a).
  { clear S. revert b L Ha B. induction a as [|x a IH]; intros [|y b] L Ha B; try discriminate; unfold wsum; simpl; [lra|].
    specialize (IH b). injection L as L. specialize (IH L (fun z Hz => Ha z (or_intror Hz)) (fun i => B (S i))).
    unfold wsum in IH. assert (0 <= x) by (apply Ha; now left).
    assert (lo * x <= x * y <= hi * x).
    { destruct (Req_dec x 0) as [->|N]; [lra|]. pose proof (B 0%nat x y eq_refl eq_refl N). nra. }
    lra. }
  rewrite S in Q. lra.
Qed.

Theorem C11_velocity_average : forall (G : Geo R), two_or_three G ->
  forall p axes (P : Particles R) n sched nodes j nd, 0 < dx p -> 0 < particle_mass p ->
  GridOk p axes -> consistent P n -> (forall x, In x (p_x P) -> in_grid p axes x) -> thread_schedule sched n ->
  p2g p axes P sched (resizeGrid axes) = Ok nodes -> nth_error nodes j = Some nd ->
  (nd_m nd = 0 -> nd_v nd = vzero) /\
  (nd_m nd <> 0 -> 0 <= flip_ratio p ->
   (exists a, average_coeffs p axes P j a /\
      forall k, (k < dim)%nat -> vget (nd_v nd) k = wsum a (map (fun v => vget v k) (p_v P))) /\
   forall k lo hi, (k < dim)%nat ->
     (forall i x v, nth_error (p_x P) i = Some x -> nth_error (p_v P) i = Some v -> touches p axes x j -> lo <= vget v k <= hi) ->
     lo <= vget (nd_v nd) k <= hi).
Proof.
  intros G HG p axes P n sched nodes j nd Hdx Hm GO Co IG Sc E Hj. pose proof (geolaws G HG) as GL.
  destruct (p2g_average p Hdx axes P n sched nodes j nd GO Co IG Sc Hm E Hj) as (M & Z & A).
  split; auto. intros Nz Hf. destruct A as (a & La & Ha & S & T & V & _); [lra|]. specialize (V Hf).
  assert (AC : average_coeffs p axes P j a) by (split; [rewrite (co_x _ _ Co); auto|split; [auto|split; auto]]).
  split; [exists a; auto|]. intros k lo hi Hk B. rewrite V by auto. apply convex_touch; auto.
  - rewrite map_length, (co_v _ _ Co); auto.
  - intros i y z Hy Hz Ny. rewrite nth_error_map in Hz. destruct (nth_error (p_v P) i) as [v|] eqn:Ev; [|discriminate].
    injection Hz as <-. assert (Hi : (i < n)%nat) by (rewrite <- (co_v _ _ Co); apply nth_error_Some; congruence).
    rewrite <- (co_x _ _ Co) in Hi. apply nth_error_Some in Hi. destruct (nth_error (p_x P) i) as [x|] eqn:Ex; [|congruence].
    eapply B; eauto. apply (T i y x); auto.
Qed.
Print Assumptions C11_velocity_average.

(** PIC parameters and the 5x5 grid: some node is massive, so the second part is not vacuous. *)
Definition ep_pic : @Par R (Geo2 R) := ex_par (G := Geo2 R) Deg2 1 0 NoPlasticity ExpoImpl false true false [].
Example C11_applies : exists nodes j nd, p2g ep_pic [ax5; ax5] ex_cloud [[1]; []; [0]]%nat (resizeGrid [ax5; ax5]) = Ok nodes /\
  nth_error nodes j = Some nd /\ nd_m nd <> 0 /\ -1 <= vget (nd_v nd) 1 <= 2.
Proof.
  assert (HG : two_or_three (Geo2 R)) by (left; reflexivity).
  assert (GO : GridOk ep_pic [ax5; ax5]) by (destruct ex_grid_ok as [g1 g2 g3]; split; [exact g1|exact g2|exact g3]).
  destruct (C08_mass_conservation (Geo2 R) HG ep_pic [ax5; ax5] ex_cloud 2 [[1]; []; [0]]%nat) as (nodes & E & M & _);
    [change (dx ep_pic) with 1; lra|change (particle_mass ep_pic) with 1; lra|auto|apply ex_consistent|apply ex_cloud_in|apply ex_sched|].
  assert (Ex : exists nd, In nd nodes /\ nd_m nd <> 0).
  { destruct (Classical_Prop.classic (exists nd, In nd nodes /\ nd_m nd <> 0)) as [?|Q]; auto. exfalso.
    assert (Z : Rsum (fun nd => nd_m nd) nodes = 0).
    { apply Rsum_zero. intros nd Hn. destruct (Req_dec (nd_m nd) 0); auto. exfalso; apply Q; eauto. }
    rewrite Z in M. change (particle_mass ep_pic) with 1 in M. replace (INR (4 ^ @dim R (Geo2 R))) with 16 in M by (cbn; lra).
    cbn [INR] in M. unfold Rabs in M. destruct Rcase_abs in M; lra. }
  destruct Ex as (nd & In & Nz). apply In_nth_error in In. destruct In as (j & Hj). exists nodes, j, nd. repeat split; auto;
  (destruct (C11_velocity_average (Geo2 R) HG ep_pic [ax5; ax5] ex_cloud 2 [[1]; []; [0]]%nat nodes j nd) as (_ & Q); auto;
    [change (dx ep_pic) with 1; lra|change (particle_mass ep_pic) with 1; lra|apply ex_consistent|apply ex_cloud_in|apply ex_sched|];
   destruct Q as (_ & Q); auto; [change (flip_ratio ep_pic) with 0; lra|];
   apply (Q 1%nat (-1) 2); [simpl; lia|];
   intros i x v _ Hv _; destruct i as [|[|[|i]]]; simpl in Hv; try discriminate; injection Hv as <-; simpl; lra).
Qed.

(** ** C16 *)
Theorem C16_friction_average : forall (G : Geo R), two_or_three G ->
  forall p axes (P : Particles R) n sched nodes j nd, 0 < dx p -> 0 < particle_mass p -> use_mibf p = true ->
  GridOk p axes -> consistent P n -> (forall x, In x (p_x P) -> in_grid p axes x) -> thread_schedule sched n ->
  p2g p axes P sched (resizeGrid axes) = Ok nodes -> nth_error nodes j = Some nd -> nd_m nd <> 0 ->
  (exists a, average_coeffs p axes P j a /\ nd_fr nd = wsum a (map (fun h => h_muI h) (p_hist P))) /\
  forall lo hi,
    (forall i x h, nth_error (p_x P) i = Some x -> nth_error (p_hist P) i = Some h -> touches p axes x j -> lo <= h_muI h <= hi) ->
    lo <= nd_fr nd <= hi.
Proof.
  intros G HG p axes P n sched nodes j nd Hdx Hm Mi GO Co IG Sc E Hj Nz. pose proof (geolaws G HG) as GL.
  destruct (p2g_average p Hdx axes P n sched nodes j nd GO Co IG Sc Hm E Hj) as (M & _ & A).
  destruct A as (a & La & Ha & S & T & _ & V); [lra|]. specialize (V Mi).
  assert (AC : average_coeffs p axes P j a) by (split; [rewrite (co_x _ _ Co); auto|split; [auto|split; auto]]).
  split; [exists a; auto|]. intros lo hi B. rewrite V. apply convex_touch; auto.
  - rewrite map_length, (co_hist _ _ Co); auto.
  - intros i y z Hy Hz Ny. rewrite nth_error_map in Hz. destruct (nth_error (p_hist P) i) as [h|] eqn:Ev; [|discriminate].
    injection Hz as <-. assert (Hi : (i < n)%nat) by (rewrite <- (co_hist _ _ Co); apply nth_error_Some; congruence).
    rewrite <- (co_x _ _ Co) in Hi. apply nth_error_Some in Hi. destruct (nth_error (p_x P) i) as [x|] eqn:Ex; [|congruence].
    eapply B; eauto. apply (T i y x); auto.
Qed.
Print Assumptions C16_friction_average.

(** The friction of a massless node is 0/0: NaN in binary64, and it is what saveGridData writes. *)
Theorem C16_massless_node_refuted : forall L : Libm,
  exists (p : @Par F (Geo2 F)) axes (P : @Particles F (Geo2 F)) sched nodes nd,
  use_mibf p = true /\ p2g (NA := NumF L) p axes P sched (resizeGrid (NA := NumF L) axes) = Ok nodes /\
  In nd nodes /\ nd_fr nd = S754_nan.
Proof.
  intros L. exists (fpar L true), (axf L), (three L), [[0; 1; 2]]%nat.
  destruct (friction_nan_node L) as (nodes & nd & E & I & _ & N). exists nodes, nd. repeat split; auto.
Qed.
Print Assumptions C16_massless_node_refuted.
