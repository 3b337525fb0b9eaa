(** * ExMech: the grid of the two-particle example, and that it is regular. *)
From Coq Require Import Reals ZArith Lra Lia List Bool Permutation.
From Verif Require Import Num NumR Tools Lin Types Remesh Objects Transfer Plastic Step Spec SpecStep SpecMech LinProofs ResProofs
  KernelProofs GridProofs StencilProofs GradProofs RemeshProofs PloopProofs StepProofs StepMech StepField SpecTime TimeProofs PlateProofs ExStep.
Import ListNotations.
Local Open Scope R_scope.
#[local] Existing Instance Geo2.
#[local] Instance GL2 : GeoLaws (Geo2 R) := geolaws _ (or_introl eq_refl).

Lemma N2_half : forall z : Z, N2 (IZR z / 2) = 0 \/ 1/8 <= N2 (IZR z / 2).
Proof.
  intros z. unfold N2. cbv zeta. rewrite ?nofZ_R. numR. cbn [nabs NumR].
  assert (A : (z <= -3 \/ z = -2 \/ z = -1 \/ z = 0 \/ z = 1 \/ z = 2 \/ 3 <= z)%Z) by lia.
  destruct A as [A|[->|[->|[->|[->|[->|A]]]]]];
  [apply IZR_le in A| | | | | |apply IZR_le in A];
  match goal with |- context [Rltb ?a (1/2)] => destruct (Rltb_spec a (1/2)) as [H|H]; destruct (Rltb_spec a (3/2)) as [H'|H'] end;
  revert H H'; unfold Rabs; destruct (Rcase_abs _); intros; try (left; lra); try (right; lra); try (right; nra); try lra.
Qed.

Section Ex.
  Variable svd : @TM R (Geo2 R) -> @TM R (Geo2 R) * @TV R (Geo2 R) * @TM R (Geo2 R).
  Variable uabs : R -> R.
  Variables (af : nat) (sc : Sched) (flip : R) (musl : bool) (rate : R) (g : @TV R (Geo2 R)) (sp : bool) (P : @Particles R (Geo2 R)) (s1 : @St R (Geo2 R)) (pls : list (@Plate R (Geo2 R))).
  Notation p := (ex_p flip musl rate g sp).
  Hypothesis Px : p_x P = [e2 (1/2) (1/4); e2 (-1/2) (3/4)].
  Hypothesis W : well_formed (initial_state p P pls) 2.
  Hypothesis V : valid_sched sc.
  Hypothesis E : advanceStep svd uabs af p sc (initial_state p P pls) = Ok s1.

  Lemma ex_axes : forall k a, nth_error (s_axes s1) k = Some a -> (k < 2)%nat /\ ax_c a = match k with O => -5/2 | _ => -7/4 end.
  Proof.
    destruct (wf_pack _ _ W) as (l & L & El & N & F). destruct (step_run svd uabs af p sc _ s1 l V El N F E) as [Rn].
    destruct (ru_remesh _ _ _ _ _ _ _ _ Rn) as (s' & Hr & Ha & _). rewrite (ru_saxes _ _ _ _ _ _ _ _ Rn), <- Ha.
    unfold remesh in Hr. cbn [use_pbc ex_p with_dt s_step s_p initial_state Z.eqb] in Hr.
    destruct (remeshFixedInit af p 2 (p_x P)) as [am| |] eqn:Ei; cbn [bind] in Hr; try discriminate. injection Hr as <-. cbn [s_axes with_grid].
    intros k a Hk. rewrite nth_error_map in Hk. destruct (nth_error am k) as [[a' m]|] eqn:Ek; [|discriminate]. cbn in Hk. injection Hk as <-.
    assert (Hk2 : (k < 2)%nat).
    { assert (length am = 2%nat) by (unfold remeshFixedInit in Ei; apply mapM_length in Ei; rewrite seq_length in Ei; exact Ei). rewrite <- H. apply nth_error_Some; congruence. }
    split; auto. unfold remeshFixedInit in Ei. pose proof (mapM_seq_nth _ _ _ _ _ _ Ei Ek) as Hx.
    destruct (remeshInit_axis_spec p ltac:(cbn; lra) af _ k a' m Hx) as ((M1 & M2 & M3 & M4) & _ & -> & _).
    rewrite M3. unfold remeshInit_axis in Hx. rewrite Px in Hx. cbn [map max_elem min_elem bind fold_left] in Hx. unfold ref_adjust in Hx.
    destruct (nltb (vget (grid_ref p) 0) _) eqn:Er; [exfalso|].
    { revert Er. rewrite nofZ_R. numR. destruct (Rltb_spec (vget (grid_ref p) 0) 10000000000) as [H|H]; [|discriminate]. cbn in H. lra. }
    destruct (mk_axis _ _ _ _) as [ax| |]; cbn [bind] in Hx; try discriminate. injection Hx as _ <-. cbn [ma_min]. 
    destruct k as [|[|k]]; [| |lia]; cbn [vget Geo2 e2]; numR; cbn;
    destruct (Rltb_spec (-1/2) (1/2)); try lra; destruct (Rltb_spec (3/4) (1/4)); try lra; cbn; lra.
  Qed.

  Hypothesis GO : GridOk p (s_axes s1).
  Hypothesis IG : forall x, In x (p_x P) -> in_grid p (s_axes s1) x.
  Theorem ex_regular : regular_cloud p (s_axes s1) (p_x P).
  Proof.
    intros x Hx. split; [|discriminate]. intros items it Es Hit.
    assert (C : Covered p (s_axes s1) x) by (apply in_grid_covered; [cbn; lra|now apply IG]).
    destruct (stencil_cov p ltac:(cbn; lra) _ _ GO C) as (Es' & _ & S). rewrite Es in Es'. injection Es' as ->.
    rewrite (item_weight p ltac:(cbn; lra) _ _ _ GO C Hit). destruct (sl_at _ _ _ _ S it Hit) as (ijk & K & _).
    assert (L : length (s_axes s1) = 2%nat) by (exact (go_dim _ _ GO)).
    destruct (s_axes s1) as [|a [|b [|]]] eqn:Ea; try discriminate.
    destruct (K 0%nat a eq_refl) as (_ & Ka). destruct (K 1%nat b eq_refl) as (_ & Kb).
    pose proof (ex_axes 0 a) as Xa. pose proof (ex_axes 1 b) as Xb. rewrite Ea in Xa, Xb. destruct (Xa eq_refl) as (_ & Xa'). destruct (Xb eq_refl) as (_ & Xb'). clear Xa Xb.
    rewrite weight2 by reflexivity. rewrite Ka, Kb, Xa', Xb'. cbn [spline ex_p N dx].
    assert (Q : exists z0 z1 : Z, (vget x 0 - (-5/2 + IZR (ijk 0%nat) * 1)) / 1 = IZR z0 / 2 /\ (vget x 1 - (-7/4 + IZR (ijk 1%nat) * 1)) / 1 = IZR z1 / 2).
    { rewrite Px in Hx. destruct Hx as [<-|[<-|[]]]; cbn [vget Geo2 e2 v2_0 v2_1].
      - exists (6 - 2 * ijk 0%nat)%Z, (4 - 2 * ijk 1%nat)%Z. rewrite !minus_IZR, !mult_IZR. split; lra.
      - exists (4 - 2 * ijk 0%nat)%Z, (5 - 2 * ijk 1%nat)%Z. rewrite !minus_IZR, !mult_IZR. split; lra. }
    destruct Q as (z0 & z1 & -> & ->). destruct (N2_half z0) as [->|H0]; [left; ring|]. destruct (N2_half z1) as [->|H1]; [left; ring|]. right. nra.
  Qed.
  (** Gravity in the step is the configured one. *)
  Lemma ex_grav : sp = false -> s_grav s1 = g.
  Proof.
    intros Hs. destruct (step_dt_grav svd uabs af p sc _ s1 E) as (_ & H & _). rewrite H. unfold gravity_of. cbn [gravity_special ex_p]. rewrite Hs. reflexivity.
  Qed.
End Ex.

(** The two-particle step with plates. *)
Theorem ex_mech_with : forall svd uabs sc flip musl g v1 v2 B1 B2 t1 t2 pls, valid_sched sc ->
  let p := ex_p flip musl 1000 g false in let s0 := initial_state p (two_particles v1 v2 B1 B2 t1 t2) pls in
  exists af s1, advanceStep svd uabs af p sc s0 = Ok s1 /\ GridOk p (s_axes s1) /\
    regular_cloud p (s_axes s1) (p_x (s_p s0)) /\ s_grav s1 = g /\
    (forall x, In x (p_x (s_p s0)) -> in_grid p (s_axes s1) x) /\
    (forall k a, nth_error (s_axes s1) k = Some a -> (k < 2)%nat /\ ax_c a = match k with O => -5/2 | _ => -7/4 end).
Proof.
  intros svd uabs sc flip musl g v1 v2 B1 B2 t1 t2 pls V p s0.
  destruct (ex_step_with svd uabs sc flip musl 1000 g false v1 v2 B1 B2 t1 t2 pls V) as (af & H). destruct (H af (le_n _)) as (s1 & E & GO & IG). exists af, s1.
  split; [exact E|]. split; [exact GO|]. split; [|split; [|split; [exact IG|]]].
  - exact (ex_regular svd uabs af sc flip musl 1000 g false (two_particles v1 v2 B1 B2 t1 t2) s1 pls eq_refl (ex_wf _ _ _ _ _ _ _ _) V E GO IG).
  - exact (ex_grav svd uabs af sc flip musl 1000 g false (two_particles v1 v2 B1 B2 t1 t2) s1 pls E eq_refl).
  - exact (ex_axes svd uabs af sc flip musl 1000 g false (two_particles v1 v2 B1 B2 t1 t2) s1 pls eq_refl (ex_wf _ _ _ _ _ _ _ _) V E).
Qed.
(** The two-particle step with everything the theorems about steps ask for. *)
Theorem ex_mech : forall svd uabs sc flip musl g v1 v2 B1 B2 t1 t2, valid_sched sc ->
  let p := ex_p flip musl 1000 g false in let s0 := ex_state p (two_particles v1 v2 B1 B2 t1 t2) in
  exists af s1, advanceStep svd uabs af p sc s0 = Ok s1 /\ free_space p s0 /\ GridOk p (s_axes s1) /\
    regular_cloud p (s_axes s1) (p_x (s_p s0)) /\ s_grav s1 = g.
Proof.
  intros svd uabs sc flip musl g v1 v2 B1 B2 t1 t2 V p s0.
  destruct (ex_mech_with svd uabs sc flip musl g v1 v2 B1 B2 t1 t2 [] V) as (af & s1 & E & GO & RC & Gr & _). exists af, s1.
  split; [exact E|]. split; [repeat split|]. auto.
Qed.

Lemma ex_dx : forall flip musl rate g sp, 0 < dx (ex_p flip musl rate g sp).
Proof. intros. cbn. lra. Qed.
Lemma ex_mass : forall flip musl rate g sp, 0 < particle_mass (ex_p flip musl rate g sp).
Proof. intros. cbn. lra. Qed.
