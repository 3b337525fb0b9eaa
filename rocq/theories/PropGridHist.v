(** * Properties C04-C06 and C33 along a simulation: the grids its steps build. *)
From Coq Require Import Reals ZArith Lra Lia List Bool.
From Verif Require Import Num NumR Tools Lin Types Remesh Objects Transfer Rma Plastic Pbc Step Spec SpecStep LinProofs ResProofs
  KernelProofs GridProofs StencilProofs RemeshProofs PlasticModels PropGrid ExStep.
Import ListNotations.
Local Open Scope R_scope.

(** [lo], [hi]: least and greatest coordinate along axis [k] among the points and the reference point, if one is given. *)
Definition extent {G : Geo R} (p : Par R) (xs : list TV) (k : nat) (lo hi : R) : Prop :=
  let pts := if Rlt_dec (vget (grid_ref p) 0) 10000000000 then grid_ref p :: xs else xs in
  (exists y, In y pts /\ vget y k = lo) /\ (exists y, In y pts /\ vget y k = hi) /\ forall y, In y pts -> lo <= vget y k <= hi.

Section Hist.
  Context {G : Geo R} {GL : GeoLaws G}.
  Variable svd : TM -> TM * TV * TM.
  Variable uabs : R -> R.

  (** The grid of a step is the one its re-meshing builds. *)
  Lemma step_grid : forall af p sc s0 s1, advanceStep svd uabs af p sc s0 = Ok s1 ->
    exists s2, remesh af p (with_dt s0 (s_dt s1) (s_grav s1)) = Ok s2 /\ s_axes s1 = s_axes s2 /\ s_mesh s1 = s_mesh s2 /\ s_step s1 = s_step s0.
  Proof using.
    intros af p sc s0 s1 H. unfold advanceStep in H. apply bind_Ok in H. destruct H as (a1 & E1 & H).
    apply bind_Ok in H. destruct H as (a2 & E2 & H). apply bind_Ok in H. destruct H as (a3 & E3 & H). cbv zeta in H.
    apply bind_Ok in H. destruct H as (g1 & E4 & H). apply bind_Ok in H. destruct H as (g2 & E5 & H).
    apply bind_Ok in H. destruct H as (a5 & E6 & H). apply bind_Ok in H. destruct H as (r & E7 & H).
    apply bind_Ok in H. destruct H as (a7 & E8 & H). apply bind_Ok in H. destruct H as (q & E9 & H). apply Ok_inj in H.
    unfold updateDt in E1. apply bind_Ok in E1. destruct E1 as (sp & _ & E1). apply Ok_inj in E1.
    assert (R2 : s_step a2 = s_step s0 /\ s_dt a2 = s_dt a1 /\ s_grav a2 = s_grav a1).
    { assert (s_step a1 = s_step s0) by now rewrite <- E1.
      unfold remesh in E2. destruct (use_pbc p), (s_step a1 =? 0)%Z; try (apply bind_Ok in E2; destruct E2 as (? & _ & E2)); apply Ok_inj in E2; subst a2; repeat split; auto. }
    assert (R3 : s_axes a3 = s_axes a2 /\ s_mesh a3 = s_mesh a2 /\ s_step a3 = s_step a2 /\ s_dt a3 = s_dt a2 /\ s_grav a3 = s_grav a2).
    { unfold pbc_before in E3. destruct (use_pbc p); [apply bind_Ok in E3; destruct E3 as (? & _ & E3)|]; apply Ok_inj in E3; subst a3; repeat split. }
    assert (R5 : s_axes a5 = s_axes a3 /\ s_mesh a5 = s_mesh a3 /\ s_step a5 = s_step a3 /\ s_dt a5 = s_dt a3 /\ s_grav a5 = s_grav a3).
    { unfold pbc_after in E6. destruct (use_pbc p); [apply bind_Ok in E6; destruct E6 as (? & _ & E6)|]; apply Ok_inj in E6; subst a5; repeat split. }
    assert (R7 : s_axes a7 = s_axes a5 /\ s_mesh a7 = s_mesh a5 /\ s_step a7 = s_step a5 /\ s_dt a7 = s_dt a5 /\ s_grav a7 = s_grav a5).
    { unfold musl_part in E8. destruct (use_musl p); [apply bind_Ok in E8; destruct E8 as (? & _ & E8); apply bind_Ok in E8; destruct E8 as (? & _ & E8); apply bind_Ok in E8; destruct E8 as (? & _ & E8)|];
      apply Ok_inj in E8; subst a7; repeat split. }
    assert (Q : s_axes s1 = s_axes a7 /\ s_mesh s1 = s_mesh a7 /\ s_step s1 = s_step a7 /\ s_dt s1 = s_dt a7 /\ s_grav s1 = s_grav a7) by (subst s1; repeat split).
    exists a2. assert (W : with_dt s0 (s_dt s1) (s_grav s1) = a1).
    { destruct R2 as (_ & D2 & D3), R3 as (_ & _ & _ & D4 & D5), R5 as (_ & _ & _ & D6 & D7), R7 as (_ & _ & _ & D8 & D9), Q as (_ & _ & _ & D10 & D11).
      rewrite D10, D8, D6, D4, D2, D11, D9, D7, D5, D3, <- E1. reflexivity. }
    rewrite W. split; [exact E2|]. split; [|split]; [| |]; intuition congruence.
  Qed.

  (** What the steps of a simulation without periodic boundaries keep: the extents recorded by the first grid. *)
  Definition anchored (p : Par R) (xs0 : list TV) (s : St R) : Prop :=
    length (s_mesh s) = dim /\ length (s_axes s) = dim /\ forall k m, nth_error (s_mesh s) k = Some m ->
      mesh_of p xs0 k m /\ extent p xs0 k (ma_min m) (ma_max m) /\
      exists a, nth_error (s_axes s) k = Some a /\ lattice (dx p) a /\ exists z, ax_c a = ma_low m + IZR z * dx p.

  Lemma ref_extent : forall p xs k mn mx, min_elem (map (fun v => vget v k) xs) = Ok mn -> max_elem (map (fun v => vget v k) xs) = Ok mx ->
    extent p xs k (fst (ref_adjust p k mn mx)) (snd (ref_adjust p k mn mx)).
  Proof using.
    intros p xs k mn mx Hn Hx. apply min_elem_spec in Hn. apply max_elem_spec in Hx. destruct Hn as [N1 N2], Hx as [X1 X2].
    apply in_map_iff in N1, X1. destruct N1 as (yn & <- & N1), X1 as (yx & <- & X1).
    assert (B : forall y, In y xs -> vget yn k <= vget y k <= vget yx k) by (intros y Hy; split; [apply N2|apply X2]; now apply (in_map (fun v => vget v k))).
    unfold extent, ref_adjust. rewrite nofZ_R. numR. pose proof (Rltb_spec (vget (grid_ref p) 0) 10000000000) as S.
    destruct (Rltb (vget (grid_ref p) 0) 10000000000); destruct (Rlt_dec _ _) as [L|L]; try (exfalso; inversion S; lra).
    - set (g := grid_ref p) in *. pose proof (B yn N1) as Bn.
      destruct (Rltb_spec (vget g k) (vget yn k)) as [a|a]; cbn [fst snd].
      + split; [exists g; split; [now left|reflexivity]|]. split; [exists yx; split; [now right|reflexivity]|]. intros y [<-|Hy]; [lra|specialize (B y Hy); lra].
      + destruct (Rltb_spec (vget yx k) (vget g k)) as [b|b]; cbn [fst snd].
        * split; [exists yn; split; [now right|reflexivity]|]. split; [exists g; split; [now left|reflexivity]|]. intros y [<-|Hy]; [lra|specialize (B y Hy); lra].
        * split; [exists yn; split; [now right|reflexivity]|]. split; [exists yx; split; [now right|reflexivity]|]. intros y [<-|Hy]; [lra|auto].
    - cbn [fst snd]. split; [exists yn; auto|]. split; [exists yx; auto|]. exact B.
  Qed.

  Lemma first_anchored : forall af p sc s0 s1, 0 < dx p -> use_pbc p = false -> s_step s0 = 0%Z -> advanceStep svd uabs af p sc s0 = Ok s1 ->
    exists am, remeshFixedInit af p 2 (p_x (s_p s0)) = Ok am /\ s_axes s1 = map fst am /\ s_mesh s1 = map snd am /\ anchored p (p_x (s_p s0)) s1.
  Proof using GL.
    intros af p sc s0 s1 Hdx Pb S0 H. destruct (step_grid _ _ _ _ _ H) as (s2 & R & A & M & _). unfold remesh in R. rewrite Pb in R.
    change (s_step (with_dt s0 (s_dt s1) (s_grav s1))) with (s_step s0) in R. rewrite S0 in R. cbn [Z.eqb] in R. apply bind_Ok in R. destruct R as (am & R & Q). apply Ok_inj in Q.
    change (p_x (s_p (with_dt s0 (s_dt s1) (s_grav s1)))) with (p_x (s_p s0)) in R.
    assert (A' : s_axes s1 = map fst am) by (rewrite A, <- Q; reflexivity). assert (M' : s_mesh s1 = map snd am) by (rewrite M, <- Q; reflexivity).
    exists am. split; [exact R|]. split; [exact A'|]. split; [exact M'|].
    pose proof R as R'. unfold remeshFixedInit in R. pose proof (mapM_length _ _ _ R) as L. rewrite seq_length in L.
    split; [rewrite M', map_length; exact L|]. split; [rewrite A', map_length; exact L|].
    intros k m E. rewrite M', nth_error_map in E. destruct (nth_error am k) as [[a m']|] eqn:E'; cbn in E; [|discriminate]. assert (m' = m) by congruence. subst m'. clear E.
    pose proof (mapM_seq_nth _ _ _ _ _ _ R E') as K. pose proof (remeshInit_axis_spec p Hdx _ _ _ _ _ K) as (K1 & K2 & K3 & _).
    split; [exact K1|]. split.
    - unfold remeshInit_axis in K. apply bind_Ok in K. destruct K as (mx & Ex & K). apply bind_Ok in K. destruct K as (mn & En & K).
      pose proof (ref_extent p _ _ _ _ En Ex) as X. destruct (ref_adjust p k mn mx) as [lo hi]. apply bind_Ok in K. destruct K as (ax & _ & K). apply Ok_inj in K.
      assert (Em : m = mkMeshAx lo hi (lo - dx p * nofZ 2)%num (hi + dx p * nofZ 2)%num) by congruence. rewrite Em. exact X.
    - exists a. split; [rewrite A', nth_error_map, E'; reflexivity|]. split; [exact K2|]. exists 0%Z. rewrite K3. ring.
  Qed.
  Lemma later_anchored : forall af p sc xs0 s0 s1, 0 < dx p -> use_pbc p = false -> s_step s0 <> 0%Z -> anchored p xs0 s0 -> advanceStep svd uabs af p sc s0 = Ok s1 ->
    remeshFixedCont af p (p_x (s_p s0)) (s_mesh s0) = Ok (s_axes s1) /\ s_mesh s1 = s_mesh s0 /\ anchored p xs0 s1.
  Proof using GL.
    intros af p sc xs0 s0 s1 Hdx Pb S0 (LM & LA & An) H. destruct (step_grid _ _ _ _ _ H) as (s2 & R & A & M & _). unfold remesh in R. rewrite Pb in R.
    change (s_step (with_dt s0 (s_dt s1) (s_grav s1))) with (s_step s0) in R. destruct (Z.eqb_spec (s_step s0) 0) as [Q|_]; [contradiction|].
    apply bind_Ok in R. destruct R as (axes & R & Q). apply Ok_inj in Q. change (remeshFixedCont af p (p_x (s_p s0)) (s_mesh s0) = Ok axes) in R.
    assert (A' : s_axes s1 = axes) by (rewrite A, <- Q; reflexivity). assert (M' : s_mesh s1 = s_mesh s0) by (rewrite M, <- Q; reflexivity).
    rewrite A'. split; [exact R|]. split; [exact M'|].
    assert (MO : mesh_ok p xs0 (s_mesh s0)) by (split; [exact LM|]; intros k m E; apply (An k m E)).
    assert (L : length axes = dim) by (unfold remeshFixedCont in R; rewrite (mapM_length _ _ _ R), combine_length, seq_length, LM; apply Nat.min_id).
    split; [rewrite M'; exact LM|]. split; [rewrite A'; exact L|]. intros k m E. rewrite M' in E. destruct (An k m E) as (K1 & K2 & _). split; [exact K1|]. split; [exact K2|].
    rewrite A'. destruct (nth_error axes k) as [a|] eqn:Ea; [|exfalso; apply nth_error_None in Ea; assert ((k < length (s_mesh s0))%nat) by (apply nth_error_Some; congruence); lia].
    exists a. split; [reflexivity|]. exact (cont_lattice p Hdx af xs0 _ _ _ k a m MO R Ea E).
  Qed.

  Lemma tick_axes : forall p (s : St R), s_axes (tick p s) = s_axes s /\ s_mesh (tick p s) = s_mesh s /\ s_step (tick p s) = wrapu (s_step s + 1).
  Proof using. intros p s. unfold tick. destruct (_ <? _)%num; repeat split. Qed.
  Lemma run_anchored : forall af p xs0 s0 l s2, 0 < dx p -> use_pbc p = false -> run svd uabs af p s0 l s2 -> anchored p xs0 s0 ->
    (0 < s_step s0)%Z -> (s_step s0 + Z.of_nat (length l) < 4294967296)%Z -> anchored p xs0 s2 /\ s_mesh s2 = s_mesh s0 /\ (0 < s_step s2)%Z.
  Proof using GL.
    intros af p xs0 s0 l s2 Hdx Pb Rn. induction Rn as [s|sc s0 s1 l s2 E Rn IH]; intros An Sp Sl; [auto|].
    destruct (later_anchored af p sc xs0 s0 s1 Hdx Pb ltac:(lia) An E) as (_ & M & An1). destruct (step_grid _ _ _ _ _ E) as (_ & _ & _ & _ & St).
    cbn [length] in Sl. destruct (tick_axes p s1) as (T1 & T2 & T3).
    assert (W : s_step (tick p s1) = (s_step s0 + 1)%Z) by (rewrite T3, St; unfold wrapu; apply Z.mod_small; lia).
    destruct IH as (I1 & I2 & I3); [|lia|lia|].
    - destruct An1 as (B1 & B2 & B3). unfold anchored. rewrite T1, T2. auto.
    - split; [exact I1|]. split; [congruence|exact I3].
  Qed.
  Lemma run_periodic : forall af p s0 l s2, use_pbc p = true -> run svd uabs af p s0 l s2 ->
    (0 < s_step s0)%Z -> (s_step s0 + Z.of_nat (length l) < 4294967296)%Z -> s_axes s2 = s_axes s0 /\ (0 < s_step s2)%Z.
  Proof using.
    intros af p s0 l s2 Pb Rn. induction Rn as [s|sc s0 s1 l s2 E Rn IH]; intros Sp Sl; [auto|].
    destruct (step_grid _ _ _ _ _ E) as (a & R & A & _ & St). cbn [length] in Sl. destruct (tick_axes p s1) as (T1 & _ & T3).
    assert (W : s_step (tick p s1) = (s_step s0 + 1)%Z) by (rewrite T3, St; unfold wrapu; apply Z.mod_small; lia).
    destruct IH as (I1 & I2); [lia|lia|]. split; [|exact I2]. rewrite I1, T1, A. unfold remesh in R. rewrite Pb in R.
    change (s_step (with_dt s0 (s_dt s1) (s_grav s1))) with (s_step s0) in R. destruct (Z.eqb_spec (s_step s0) 0) as [Q|_]; [lia|]. apply Ok_inj in R. rewrite <- R. reflexivity.
  Qed.
End Hist.

(** ** C04: the first step. *)
Theorem C04_first_step_covers : forall (G : Geo R), two_or_three G -> forall svd uabs af p sc s0 s1,
  0 < dx p -> use_pbc p = false -> s_step s0 = 0%Z -> advanceStep svd uabs af p sc s0 = Ok s1 -> (prodlen (s_axes s1) <= 4294967295)%Z ->
  forall x, In x (p_x (s_p s0)) -> stencil_in_arrays p (s_axes s1) x.
Proof.
  intros G HG svd uabs af p sc s0 s1 Hdx Pb S0 H F x Hx. pose proof (geolaws G HG) as GL.
  destruct (first_anchored svd uabs af p sc s0 s1 Hdx Pb S0 H) as (am & E & A & _). rewrite A in *. eapply C04_initial_grid_covers; eauto.
Qed.
(** ** C05: any later step of a simulation of any length (the step counter is 32 bits wide).  Missing, as in
    [C05_later_grids_cover_partial]: clouds in the thin bands, where it fails ([C05_refuted]). *)
Theorem C05_later_steps_cover_partial : forall (G : Geo R), two_or_three G -> forall svd uabs af p sc s0 s1 l s2 sc2 s3,
  0 < dx p -> use_pbc p = false -> s_step s0 = 0%Z -> advanceStep svd uabs af p sc s0 = Ok s1 ->
  run svd uabs af p (tick p s1) l s2 -> (Z.of_nat (length l) < 4294967295)%Z -> advanceStep svd uabs af p sc2 s2 = Ok s3 ->
  (prodlen (s_axes s3) <= 4294967295)%Z ->
  (forall k lo hi x (n : Z), (k < dim)%nat -> extent p (p_x (s_p s0)) k lo hi -> In x (p_x (s_p s2)) -> (1 <= n)%Z ->
     ~ (IZR n <= (lo - vget x k) / dx p < IZR n + 1/100000000 * dx p) /\
     ~ (IZR n <= (vget x k - hi) / dx p < IZR n + 1/100000000 * dx p)) ->
  forall x, In x (p_x (s_p s2)) -> stencil_in_arrays p (s_axes s3) x.
Proof.
  intros G HG svd uabs af p sc s0 s1 l s2 sc2 s3 Hdx Pb S0 H Rn Ll H3 F Th x Hx. pose proof (geolaws G HG) as GL.
  destruct (first_anchored svd uabs af p sc s0 s1 Hdx Pb S0 H) as (am & E & A & M & An). destruct (step_grid _ _ _ _ _ _ _ H) as (_ & _ & _ & _ & St).
  destruct (tick_axes p s1) as (T1 & T2 & T3). assert (W : s_step (tick p s1) = 1%Z) by (rewrite T3, St, S0; reflexivity).
  destruct (run_anchored svd uabs af p (p_x (s_p s0)) (tick p s1) l s2 Hdx Pb Rn) as (An2 & M2 & Sp2); [unfold anchored in *; rewrite T1, T2; exact An|lia|lia|].
  destruct (later_anchored svd uabs af p sc2 _ s2 s3 Hdx Pb ltac:(lia) An2 H3) as (R3 & _ & _). rewrite M2, T2, M in R3.
  eapply (C05_later_grids_cover_partial G HG); eauto. intros k m y n Em Hy Hn. rewrite <- M in Em. destruct An as (L1 & _ & An). 
  apply (Th k (ma_min m) (ma_max m) y n); auto; [|apply (An k m Em)]. rewrite <- L1. apply nth_error_Some. congruence.
Qed.
(** ** C06: the grids of all steps of a simulation lie on the lattice of the first. *)
Theorem C06_simulation_never_drifts : forall (G : Geo R), two_or_three G -> forall svd uabs af p sc s0 s1 l s2 k a0 a,
  0 < dx p -> s_step s0 = 0%Z -> advanceStep svd uabs af p sc s0 = Ok s1 ->
  run svd uabs af p (tick p s1) l s2 -> (Z.of_nat (length l) < 4294967295)%Z ->
  nth_error (s_axes s1) k = Some a0 -> nth_error (s_axes s2) k = Some a ->
  forall y0 i y, nth_error (ax_co a0) 0 = Some y0 -> nth_error (ax_co a) i = Some y ->
  (exists n : Z, y = y0 + IZR n * dx p) /\ (forall y', nth_error (ax_co a) (S i) = Some y' -> y' = y + dx p).
Proof.
  intros G HG svd uabs af p sc s0 s1 l s2 k a0 a Hdx S0 H Rn Ll Ea0 Ea y0 i y Hy0 Hy. pose proof (geolaws G HG) as GL.
  destruct (step_grid _ _ _ _ _ _ _ H) as (s' & R & A & _ & St).
  destruct (tick_axes p s1) as (T1 & T2 & T3). assert (W : s_step (tick p s1) = 1%Z) by (rewrite T3, St, S0; reflexivity).
  assert (K : lattice (dx p) a0 /\ lattice (dx p) a /\ exists z, ax_c a = ax_c a0 + IZR z * dx p).
  { destruct (use_pbc p) eqn:Pb.
    - destruct (run_periodic svd uabs af p (tick p s1) l s2 Pb Rn) as (I1 & _); [lia|lia|]. rewrite I1, T1 in Ea. assert (a = a0) by congruence. subst a.
      unfold remesh in R. rewrite Pb in R. change (s_step (with_dt s0 (s_dt s1) (s_grav s1))) with (s_step s0) in R. rewrite S0 in R. cbn [Z.eqb] in R.
      apply bind_Ok in R. destruct R as (axes & R & Q). apply Ok_inj in Q. rewrite A, <- Q in Ea0. change (nth_error axes k = Some a0) in Ea0.
      unfold remeshFixed in R. pose proof (mapM_seq_nth _ _ _ _ _ _ R Ea0) as K. assert (lattice (dx p) a0) by (destruct k as [|[|k]]; apply mk_axis_spec in K; auto; apply K).
      split; [auto|]. split; [auto|]. exists 0%Z. ring.
    - destruct (first_anchored svd uabs af p sc s0 s1 Hdx Pb S0 H) as (am & E & A1 & M & An).
      destruct (run_anchored svd uabs af p (p_x (s_p s0)) (tick p s1) l s2 Hdx Pb Rn) as (An2 & M2 & _); [unfold anchored in *; rewrite T1, T2; exact An|lia|lia|].
      destruct An as (L1 & L2 & An), An2 as (L3 & L4 & An2). assert (Lk : (k < length (s_mesh s1))%nat) by (rewrite L1, <- L2; apply nth_error_Some; congruence).
      destruct (nth_error (s_mesh s1) k) as [m|] eqn:Em; [|apply nth_error_None in Em; lia].
      destruct (An k m Em) as (_ & _ & b0 & B0 & B1 & z0 & B2). rewrite M2, T2 in An2. destruct (An2 k m Em) as (_ & _ & b & C0 & C1 & z & C2).
      assert (b0 = a0) by congruence. assert (b = a) by congruence. subst b0 b. split; [auto|]. split; [auto|]. exists (z - z0)%Z. rewrite minus_IZR. lra. }
  destruct K as (K0 & K1 & z & K2). rewrite (lattice_co _ _ K0), nth_error_seq_map in Hy0. rewrite (lattice_co _ _ K1), nth_error_seq_map in Hy.
  destruct (Nat.ltb_spec 0 (lat_n a0)); [|discriminate]. destruct (Nat.ltb_spec i (lat_n a)); [|discriminate]. rewrite Nat.add_0_l in Hy, Hy0. cbn [INR] in Hy0.
  assert (y0 = ax_c a0) by (cut (y0 = ax_c a0 + 0 * dx p); [lra|congruence]). assert (Ey : y = ax_c a + INR i * dx p) by congruence. subst y y0. split.
  - exists (z + Z.of_nat i)%Z. rewrite plus_IZR, <- INR_IZR_INZ, K2. ring.
  - intros y' Hy'. rewrite (lattice_co _ _ K1), nth_error_seq_map in Hy'. destruct (Nat.ltb_spec (S i) (lat_n a)); [|discriminate]. rewrite Nat.add_0_l, S_INR in Hy'.
    assert (y' = ax_c a + (INR i + 1) * dx p) by congruence. subst y'. ring.
Qed.
(** ** C33: the grid of every step of a periodic simulation. *)
Theorem C33_simulation_grid_covers : forall (G : Geo R), two_or_three G -> forall svd uabs af p sc s0 s1 l s2 x,
  0 < dx p -> use_pbc p = true -> s_step s0 = 0%Z -> advanceStep svd uabs af p sc s0 = Ok s1 ->
  run svd uabs af p (tick p s1) l s2 -> (Z.of_nat (length l) < 4294967295)%Z -> (prodlen (s_axes s1) <= 4294967295)%Z ->
  - 4 * dx p <= vget x 0 < Lx p + 4 * dx p -> 0 <= vget x 1 < Ly p + 4 * dx p -> (dim = 3%nat -> - 4 * dx p <= vget x 2 < Lz p + 4 * dx p) ->
  s_axes s2 = s_axes s1 /\ stencil_in_arrays p (s_axes s1) x.
Proof.
  intros G HG svd uabs af p sc s0 s1 l s2 x Hdx Pb S0 H Rn Ll F X Y Z. pose proof (geolaws G HG) as GL.
  destruct (step_grid _ _ _ _ _ _ _ H) as (s' & R & A & _ & St).
  destruct (tick_axes p s1) as (T1 & T2 & T3). assert (W : s_step (tick p s1) = 1%Z) by (rewrite T3, St, S0; reflexivity).
  destruct (run_periodic svd uabs af p (tick p s1) l s2 Pb Rn) as (I1 & _); [lia|lia|]. split; [congruence|].
  unfold remesh in R. rewrite Pb in R. change (s_step (with_dt s0 (s_dt s1) (s_grav s1))) with (s_step s0) in R. rewrite S0 in R. cbn [Z.eqb] in R.
  apply bind_Ok in R. destruct R as (axes & R & Q). apply Ok_inj in Q. assert (A' : s_axes s1 = axes) by (rewrite A, <- Q; reflexivity). rewrite A' in *.
  eapply C33_periodic_grid_covers; eauto.
Qed.
Print Assumptions C04_first_step_covers.
Print Assumptions C05_later_steps_cover_partial.
Print Assumptions C06_simulation_never_drifts.
Print Assumptions C33_simulation_grid_covers.
