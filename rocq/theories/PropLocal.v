(** * PropLocal: C80, over a step a particle feels only what lies within two kernel radii. *)
From Coq Require Import Reals ZArith Lra Lia List Bool Permutation.
From Verif Require Import Num NumR Tools Lin Types Remesh Objects Transfer Rma Plastic Pbc Step Spec SpecStep SpecMech SpecMpm SpecLocal LinProofs ResProofs
  StencilProofs PloopProofs StepProofs StepMech StepField TimeProofs GradProofs PlateProofs PlasticModels MpmProofs BalanceProofs TwinProofs GalileiProofs LocalProofs ExStep ExMech ExHalf PropStep.
Import ListNotations.
Local Open Scope R_scope.

(** Two simulations with the same parameters, plates, time step and gravity on one lattice; [q] is particle [i] of the first and particle [i'] of the second. *)
Theorem C80_step : forall (G : Geo R), two_or_three G -> forall svd uabs af af' p sc sc' s0 s1 s0' s1' n n',
  0 < dx p -> 0 < particle_mass p -> use_pbc p = false -> change_pos p = false ->
  valid_sched sc -> well_formed s0 n -> advanceStep svd uabs af p sc s0 = Ok s1 -> GridOk p (s_axes s1) -> regular_cloud p (s_axes s1) (p_x (s_p s0)) ->
  valid_sched sc' -> well_formed s0' n' -> advanceStep svd uabs af' p sc' s0' = Ok s1' -> GridOk p (s_axes s1') -> regular_cloud p (s_axes s1') (p_x (s_p s0')) ->
  s_plates s0' = s_plates s0 -> s_dt s1' = s_dt s1 -> s_grav s1' = s_grav s1 -> one_lattice p (s_axes s1) (s_axes s1') ->
  let l := particles (s_p s0) in let l' := particles (s_p s0') in
  forall i i' q q1 q1', nth_error l i = Some q -> nth_error l' i' = Some q ->
  nth_error (particles (s_p s1)) i = Some q1 -> nth_error (particles (s_p s1')) i' = Some q1' ->
  same_around (2 * kernel_radius p) (q_x q) l l' ->
  q_x q1' = q_x q1 /\ q_v q1' = q_v q1 /\ (flip_ratio p < 0 -> q_B q1' = q_B q1) /\
  (use_musl p = false \/ same_around (4 * kernel_radius p) (q_x q) l l' -> q_F q1' = q_F q1 /\ q_tau q1' = q_tau q1 /\ q_h q1' = q_h q1).
Proof.
  intros G HG svd uabs af af' p sc sc' s0 s1 s0' s1' n n' Hdx Hm Hp Hc V W H GO RC V' W' H' GO' RC' Pl Hdt Hg Al l l' i i' q q1 q1' Ei Ei' Ea Eb S. pose proof (geolaws G HG) as GL.
  destruct (step_laws svd uabs af p sc s0 s1 n Hdx Hm Hp V W H GO RC) as (g & A1 & A2 & A3).
  destruct (step_laws svd uabs af' p sc' s0' s1' n' Hdx Hm Hp V' W' H' GO' RC') as (g' & B1 & B2 & B3). rewrite Pl, Hdt, Hg in *.
  destruct (bl_cov svd uabs af p sc s0 s1 n Hdx Hm Hp V W H GO RC) as (Cov & Off). destruct (bl_cov svd uabs af' p sc' s0' s1' n' Hdx Hm Hp V' W' H' GO' RC') as (Cov' & Off').
  destruct (kin_around svd uabs p Hdx Hm (s_dt s1) (s_grav s1) (s_plates s0) (s_axes s1) (s_axes s1') l l' (particles (s_p s1)) (particles (s_p s1')) g g' (s_nodes s1) (s_nodes s1') GO GO' Al Cov Cov' A1 B1 A3 B3 i i' q q1 q1' Ei Ei' Ea Eb S) as (K1 & K2 & K3).
  split; [auto|]. split; [auto|]. split; [auto|]. intros S'.
  apply (strain_around svd uabs p Hdx Hm (s_dt s1) (s_grav s1) (s_plates s0) (s_axes s1) (s_axes s1') l l' (particles (s_p s1)) (particles (s_p s1')) g g' (s_nodes s1) (s_nodes s1') GO GO' Al Cov Off Cov' Off' A1 B1 A2 B2 A3 B3 i i' q q1 q1' Ei Ei' Ea Eb).
  destruct S'; auto.
Qed.
Print Assumptions C80_step.

(** Two bodies that are two kernel radii apart (four with MUSL): the first moves as it would alone. *)
Theorem C80_separate_bodies : forall (G : Geo R), two_or_three G -> forall svd uabs af af' p sc sc' s0 s1 s0' s1' n n' first second,
  0 < dx p -> 0 < particle_mass p -> use_pbc p = false -> change_pos p = false ->
  valid_sched sc -> well_formed s0 n -> advanceStep svd uabs af p sc s0 = Ok s1 -> GridOk p (s_axes s1) -> regular_cloud p (s_axes s1) (p_x (s_p s0)) ->
  valid_sched sc' -> well_formed s0' n' -> advanceStep svd uabs af' p sc' s0' = Ok s1' -> GridOk p (s_axes s1') -> regular_cloud p (s_axes s1') (p_x (s_p s0')) ->
  s_plates s0' = s_plates s0 -> s_dt s1' = s_dt s1 -> s_grav s1' = s_grav s1 -> one_lattice p (s_axes s1) (s_axes s1') ->
  particles (s_p s0) = first ++ second -> particles (s_p s0') = first ->
  (forall q r, In q first -> In r second -> beyond ((if use_musl p then 4 else 2) * kernel_radius p) (q_x q) (q_x r)) ->
  forall i q1 q1', (i < length first)%nat -> nth_error (particles (s_p s1)) i = Some q1 -> nth_error (particles (s_p s1')) i = Some q1' ->
  q_x q1 = q_x q1' /\ q_v q1 = q_v q1' /\ (flip_ratio p < 0 -> q_B q1 = q_B q1') /\ q_F q1 = q_F q1' /\ q_tau q1 = q_tau q1' /\ q_h q1 = q_h q1'.
Proof.
  intros G HG svd uabs af af' p sc sc' s0 s1 s0' s1' n n' first second Hdx Hm Hp Hc V W H GO RC V' W' H' GO' RC' Pl Hdt Hg Al E1 E2 B i q1 q1' Hi Ea Eb.
  destruct (nth_error first i) as [q|] eqn:Eq; [|apply nth_error_None in Eq; lia]. pose proof (nth_error_In _ _ Eq) as Hq.
  assert (R0 : 0 < kernel_radius p) by now apply rad_pos.
  assert (S : same_around ((if use_musl p then 4 else 2) * kernel_radius p) (q_x q) (particles (s_p s0)) (particles (s_p s0'))).
  { exists first, second, []. rewrite E1, E2, app_nil_r. split; [apply Permutation_refl|]. split; [apply Permutation_refl|]. intros r Hr. rewrite app_nil_r in Hr. now apply B. }
  assert (S2 : same_around (2 * kernel_radius p) (q_x q) (particles (s_p s0)) (particles (s_p s0'))).
  { destruct (use_musl p); auto. destruct S as (a & b & c & P1 & P2 & Q). exists a, b, c. split; auto. split; auto. intros r Hr. destruct (Q r Hr) as (k & Hk & Hb). exists k. split; auto. lra. }
  destruct (C80_step G HG svd uabs af af' p sc sc' s0 s1 s0' s1' n n' Hdx Hm Hp Hc V W H GO RC V' W' H' GO' RC' Pl Hdt Hg Al i i q q1 q1') as (K1 & K2 & K3 & K4); auto.
  - rewrite E1, nth_error_app1 by auto. exact Eq.
  - now rewrite E2.
  - destruct K4 as (K4 & K5 & K6); [destruct (use_musl p); auto|]. repeat split; auto. intros Hf. symmetry. auto.
Qed.
Print Assumptions C80_separate_bodies.

(** Two touching particles, and one far away or two others far away elsewhere. *)
Definition loc_q (x y u v : R) (t : @TM R (Geo2 R)) : @P1 R (Geo2 R) := mkP1 (e2 x y) (e2 u v) vzero vzero (mkHist 0 0 0 0 0 0) mident mident t.
Definition loc_near : list (@P1 R (Geo2 R)) := [loc_q 0 (1/4) 3 4 (mkM2 5 1 1 7); loc_q (1/2) (3/4) (-1) 2 (mkM2 (-2) 0 0 3)].
Definition loc_l : list (@P1 R (Geo2 R)) := loc_near ++ [loc_q 20 (1/4) 1 0 mzero].
Definition loc_l' : list (@P1 R (Geo2 R)) := loc_near ++ [loc_q 10 (33/4) 0 (-1) (mkM2 1 0 0 1); loc_q 30 (33/4) 2 0 mident].
Example C80_ex : forall svd uabs (musl : bool), let p := ex_p (-1/2) musl 1000 (e2 0 (-10)) false in
  let s0 := initial_state p (pack loc_l) [] in let s0' := initial_state p (pack loc_l') [] in
  exists af s1 s1', advanceStep svd uabs af p rev_sched s0 = Ok s1 /\ GridOk p (s_axes s1) /\ regular_cloud p (s_axes s1) (p_x (s_p s0)) /\
    advanceStep svd uabs af p rev_sched s0' = Ok s1' /\ GridOk p (s_axes s1') /\ regular_cloud p (s_axes s1') (p_x (s_p s0')) /\
    s_dt s1' = s_dt s1 /\ s_grav s1' = s_grav s1 /\ one_lattice p (s_axes s1) (s_axes s1') /\
    (forall q, In q loc_near -> same_around (4 * kernel_radius p) (q_x q) (particles (s_p s0)) (particles (s_p s0'))).
Proof.
  intros svd uabs musl p s0 s0'.
  assert (R1 : forall q, In q loc_l -> on_raster (q_x q)).
  { intros q [<-|[<-|[<-|[]]]]; (split; [intros [|[|k]] Hk; [| |lia]; cbn; apply Rabs_le; lra|]); cbn.
    - exists 0%Z, 0%Z. lra.
    - exists 1%Z, 1%Z. lra.
    - exists 40%Z, 0%Z. lra. }
  assert (R2 : forall q, In q loc_l' -> on_raster (q_x q)).
  { intros q [<-|[<-|[<-|[<-|[]]]]]; (split; [intros [|[|k]] Hk; [| |lia]; cbn; apply Rabs_le; lra|]); cbn.
    - exists 0%Z, 0%Z. lra.
    - exists 1%Z, 1%Z. lra.
    - exists 20%Z, 16%Z. lra.
    - exists 60%Z, 16%Z. lra. }
  destruct (half_step svd uabs rev_sched (-1/2) musl 1000 (e2 0 (-10)) false loc_l [] ltac:(discriminate) ltac:(cbn; lia) R1 rev_valid) as (a1 & H1).
  destruct (half_step svd uabs rev_sched (-1/2) musl 1000 (e2 0 (-10)) false loc_l' [] ltac:(discriminate) ltac:(cbn; lia) R2 rev_valid) as (a2 & H2).
  destruct (H1 (Nat.max a1 a2) (Nat.le_max_l _ _)) as (s1 & E & GO & RC & AX). destruct (H2 (Nat.max a1 a2) (Nat.le_max_r _ _)) as (s1' & E' & GO' & RC' & AX').
  exists (Nat.max a1 a2), s1, s1'. do 6 (split; [assumption|]).
  destruct (step_dt_grav svd uabs _ p rev_sched s0 s1 E) as (_ & G1 & sp & M1 & D1). destruct (step_dt_grav svd uabs _ p rev_sched s0' s1' E') as (_ & G2 & sp' & M2 & D2).
  assert (Msp : forall r, (forall w, In w r -> vsqnorm w <= 25) -> max_speed (e2 3 4 :: r) = Ok (vnorm (e2 3 4))).
  { intros r Hr. unfold max_speed. f_equal. f_equal. induction r as [|w r IH]; cbn [fold_left]; auto. numR.
    destruct (Rltb_spec (vsqnorm (e2 3 4)) (vsqnorm w)) as [Hl|Hl]; [|apply IH; intros; apply Hr; now right]. exfalso. specialize (Hr w (or_introl eq_refl)). cbn in Hl, Hr. lra. }
  split; [|split; [|split]].
  - assert (X1 : max_speed (p_v (s_p s0)) = Ok (vnorm (e2 3 4))) by (apply Msp; intros w [<-|[<-|[]]]; cbn; lra).
    assert (X2 : max_speed (p_v (s_p s0')) = Ok (vnorm (e2 3 4))) by (apply Msp; intros w [<-|[<-|[<-|[]]]]; cbn; lra).
    rewrite X1 in M1. rewrite X2 in M2. apply Ok_inj in M1, M2. subst sp sp'. rewrite D1, D2. reflexivity.
  - rewrite G1, G2. reflexivity.
  - intros k a a' Ha Ha'. destruct (AX k a Ha) as (Hk & (q & Hq & Eq) & Min). destruct (AX' k a' Ha') as (_ & (q' & Hq' & Eq') & Min'). exists 0%Z.
    assert (A : ax_c a <= vget (q_x (loc_q 0 (1/4) 3 4 (mkM2 5 1 1 7))) k - 2) by (apply Min; now left).
    assert (A' : ax_c a' <= vget (q_x (loc_q 0 (1/4) 3 4 (mkM2 5 1 1 7))) k - 2) by (apply Min'; now left).
    destruct k as [|[|k]]; [| |lia]; destruct Hq as [<-|[<-|[<-|[]]]]; destruct Hq' as [<-|[<-|[<-|[<-|[]]]]]; cbn in *; lra.
  - intros q Hq. unfold s0, s0'. cbn [s_p initial_state]. rewrite !particles_pack. exists loc_near, [loc_q 20 (1/4) 1 0 mzero], [loc_q 10 (33/4) 0 (-1) (mkM2 1 0 0 1); loc_q 30 (33/4) 2 0 mident].
    split; [apply Permutation_refl|]. split; [apply Permutation_refl|]. intros r Hr. exists 0%nat. split; [cbn; lia|].
    unfold kernel_radius. cbn [spline dx ex_p p]. destruct Hq as [<-|[<-|[]]]; destruct Hr as [<-|[<-|[<-|[]]]]; cbn; rewrite Rabs_pos_eq by lra; lra.
Qed.
