(** * GridProofs: grid construction, node numbering, stencil coverage (C04-C07, C33). *)
From Coq Require Import Reals ZArith Lra Lia List Bool Permutation.
From Flocq Require Import Core.Raux.
From Verif Require Import Num NumR Tools Lin Types Remesh Objects Transfer LinProofs ResProofs Spec.
Import ListNotations.
Local Open Scope R_scope.

(** ** arange *)
Lemma arange_spec : forall fuel v stop step l, 0 < step ->
  arange_loop fuel v stop step = Some l ->
  l = map (fun i => v + INR i * step) (seq 0 (length l)) /\
  stop <= v + INR (length l) * step /\
  (l <> [] -> v + (INR (length l) - 1) * step < stop).
Proof.
  induction fuel; intros v stop step l Hs H; simpl in H.
  - destruct (Rltb_spec v stop); [discriminate|]. injection H as <-. simpl.
    repeat split; try lra. congruence.
  - destruct (Rltb_spec v stop).
    + destruct (arange_loop fuel (v + step) stop step) eqn:E; [|discriminate].
      injection H as <-. apply IHfuel in E; auto. destruct E as (E1 & E2 & E3).
      change (length (v :: l0)) with (S (length l0)). rewrite S_INR. repeat split.
      * cbn [seq map]. f_equal; [simpl; lra|].
        rewrite E1 at 1. rewrite <- seq_shift, map_map. apply map_ext. intros i. rewrite S_INR. lra.
      * lra.
      * intros _. destruct l0; [simpl; lra|]. assert (H : r0 :: l0 <> []) by discriminate.
        apply E3 in H. lra.
    + injection H as <-. simpl. repeat split; try lra. congruence.
Qed.
Lemma arange_terminates : forall fuel v stop step, 0 < step -> (stop - v) / step <= INR fuel ->
  exists l, arange_loop fuel v stop step = Some l.
Proof.
  induction fuel; intros v stop step Hs H; simpl.
  - destruct (Rltb_spec v stop); [|eauto]. simpl in H.
    assert (0 < (stop - v) / step) by (apply Rdiv_lt_0_compat; lra). lra.
  - destruct (Rltb_spec v stop); [|eauto].
    destruct (IHfuel (v + step) stop step Hs) as [l E].
    + rewrite S_INR in H. replace ((stop - (v + step)) / step) with ((stop - v) / step - 1) by (field; lra). lra.
    + numR. rewrite E. eauto.
Qed.
Lemma arange_terminates' : forall v stop step, 0 < step -> exists fuel0, forall fuel, (fuel0 <= fuel)%nat ->
  exists l, arange_loop fuel v stop step = Some l.
Proof.
  intros. exists (Z.to_nat (up ((stop - v) / step))). intros fuel Hf.
  apply arange_terminates; auto.
  destruct (archimed ((stop - v) / step)) as [Hu _].
  apply le_INR in Hf. apply Rle_trans with (IZR (up ((stop - v) / step))); [lra|].
  destruct (Z_le_gt_dec 0 (up ((stop - v) / step))) as [Hz|Hz].
  - rewrite INR_IZR_INZ, Z2Nat.id in Hf by auto. auto.
  - assert (IZR (up ((stop - v) / step)) <= 0) by (apply IZR_le; lia). pose proof (pos_INR fuel). lra.
Qed.

(** ** Lattice axes *)
Definition lat_n (a : Axis R) : nat := length (ax_co a).

Lemma lattice_co : forall h a, lattice h a -> ax_co a = map (fun i => ax_c a + INR i * h) (seq 0 (lat_n a)).
Proof. intros h a (n & Hn & E). unfold lat_n. rewrite E at 2. rewrite map_length, seq_length; auto. Qed.
Lemma lattice_rd : forall h a z, lattice h a -> (0 <= z < Z.of_nat (lat_n a))%Z ->
  rd (ax_co a) z = Ok (ax_c a + IZR z * h).
Proof.
  intros h a z HL Hz. apply rd_Ok. split; [lia|]. rewrite (lattice_co _ _ HL).
  rewrite nth_error_seq_map. destruct (Nat.ltb_spec (Z.to_nat z) (lat_n a)); [|lia].
  simpl. rewrite INR_IZR_INZ, Z2Nat.id by lia. auto.
Qed.

Lemma mk_axis_spec : forall fuel v stop step a, 0 < step ->
  mk_axis fuel v stop step = Ok a ->
  ax_c a = v /\ lattice step a /\ stop <= v + INR (lat_n a) * step /\ v + (INR (lat_n a) - 1) * step < stop.
Proof.
  intros fuel v stop step a Hs H. unfold mk_axis, arange in H.
  destruct (arange_loop fuel v stop step) as [l|] eqn:E; [|discriminate].
  apply arange_spec in E; auto. destruct E as (E1 & E2 & E3).
  simpl in H. apply bind_Ok in H. destruct H as (c & Hc & H). injection H as <-.
  apply rd_Ok in Hc. destruct Hc as [_ Hc]. change (Z.to_nat 0) with 0%nat in Hc.
  assert (L : (0 < length l)%nat) by (destruct l; simpl in *; [discriminate|lia]).
  assert (c = v).
  { rewrite E1 in Hc. rewrite nth_error_seq_map in Hc. destruct (Nat.ltb_spec 0 (length l)); [|lia].
    simpl in Hc. injection Hc as <-. lra. }
  subst c. unfold lat_n; simpl. repeat split; auto.
  - exists (length l). split; auto.
  - apply E3. destruct l; simpl in *; congruence || lia.
Qed.
Lemma mk_axis_terminates : forall v stop step, 0 < step -> v < stop ->
  exists fuel0, forall fuel, (fuel0 <= fuel)%nat -> exists a, mk_axis fuel v stop step = Ok a.
Proof.
  intros v stop step Hs Hv. destruct (arange_terminates' v stop step Hs) as [f0 H].
  exists f0. intros fuel Hf. destruct (H fuel Hf) as [l E]. unfold mk_axis, arange. rewrite E. simpl.
  apply arange_spec in E; auto. destruct E as (E1 & E2 & E3).
  destruct l; simpl in *; [lra|]. eauto.
Qed.

(** ** max_element, min_element *)
Lemma max_elem_spec : forall xs m, max_elem (A := R) xs = Ok m -> In m xs /\ forall x, In x xs -> x <= m.
Proof.
  intros [|x r] m H; simpl in H; [discriminate|]. injection H as <-.
  assert (G : forall l a, In (fold_left (fun m y => if Rltb m y then y else m) l a) (a :: l) /\
    forall x, In x (a :: l) -> x <= fold_left (fun m y => if Rltb m y then y else m) l a).
  { induction l as [|b l IH]; intros a; simpl.
    - split; auto. intros x0 [->|[]]; lra.
    - destruct (IH (if Rltb a b then b else a)) as [I1 I2]. split.
      + destruct I1 as [I1|I1]; [|auto]. destruct (Rltb a b); rewrite <- I1; auto.
      + intros y [->|[->|Hy]].
        * apply Rle_trans with (if Rltb y b then b else y); [rcase|apply I2; now left].
        * apply Rle_trans with (if Rltb a y then y else a); [rcase|apply I2; now left].
        * apply I2; now right. }
  apply G.
Qed.
Lemma min_elem_spec : forall xs m, min_elem (A := R) xs = Ok m -> In m xs /\ forall x, In x xs -> m <= x.
Proof.
  intros [|x r] m H; simpl in H; [discriminate|]. injection H as <-.
  assert (G : forall l a, In (fold_left (fun m y => if Rltb y m then y else m) l a) (a :: l) /\
    forall x, In x (a :: l) -> fold_left (fun m y => if Rltb y m then y else m) l a <= x).
  { induction l as [|b l IH]; intros a; simpl.
    - split; auto. intros x0 [->|[]]; lra.
    - destruct (IH (if Rltb b a then b else a)) as [I1 I2]. split.
      + destruct I1 as [I1|I1]; [|auto]. destruct (Rltb b a); rewrite <- I1; auto.
      + intros y [->|[->|Hy]].
        * apply Rle_trans with (if Rltb b y then b else y); [apply I2; now left|rcase].
        * apply Rle_trans with (if Rltb y a then y else a); [apply I2; now left|rcase].
        * apply I2; now right. }
  apply G.
Qed.
Lemma max_elem_ex : forall xs : list R, xs <> [] -> exists m, max_elem xs = Ok m.
Proof. intros [|x r] H; simpl; [congruence|eauto]. Qed.
Lemma min_elem_ex : forall xs : list R, xs <> [] -> exists m, min_elem xs = Ok m.
Proof. intros [|x r] H; simpl; [congruence|eauto]. Qed.

(** ** Floors *)
Lemma Zfloor_bounds : forall x, IZR (Zfloor x) <= x < IZR (Zfloor x) + 1.
Proof. intros; split; [apply Zfloor_lb|apply Zfloor_ub]. Qed.
Lemma to_int_floor : forall x : R, (-2147483648 <= Zfloor x <= 2147483647)%Z -> to_int (nfloor x) = Ok (Zfloor x).
Proof.
  intros x H. unfold to_int. numR. rewrite Ztrunc_IZR. unfold int_ok.
  destruct (Z.leb_spec (-2147483648) (Zfloor x)); destruct (Z.leb_spec (Zfloor x) 2147483647); simpl; auto; lia.
Qed.
Lemma to_uint_IZR : forall z : Z, (0 <= z <= 4294967295)%Z -> to_uint (IZR z : R) = Ok z.
Proof.
  intros z H. unfold to_uint. numR. rewrite Ztrunc_IZR. unfold uint_ok.
  destruct (Z.leb_spec 0 z); destruct (Z.leb_spec z 4294967295); simpl; auto; lia.
Qed.
Lemma to_uint_inv : forall (x : R) z, to_uint x = Ok z -> Ztrunc x = z /\ (0 <= z <= 4294967295)%Z.
Proof.
  intros x z H. unfold to_uint in H. revert H. numR. unfold uint_ok.
  destruct (Z.leb_spec 0 (Ztrunc x)); destruct (Z.leb_spec (Ztrunc x) 4294967295); simpl; intros E;
    try discriminate. injection E as <-. auto.
Qed.

(** ** Coverage of one axis *)
Section Axis.
  Context {G : Geo R}.
  Variable p : Par R.
  Hypothesis Hdx : 0 < dx p.

  (** Particle coordinate [x] has room on axis [a]: at least one cell to the left, and the fourth
      stencil node exists. *)
  Definition cell_of (a : Axis R) (x : R) : Z := Zfloor ((x - ax_c a) / dx p).
  Definition covered (a : Axis R) (x : R) : Prop :=
    (1 <= cell_of a x)%Z /\ (cell_of a x + 2 < Z.of_nat (lat_n a))%Z.

  Lemma one_over_dx_R : forall x, x * one_over_dx p = x / dx p.
  Proof. intros; unfold one_over_dx; rewrite nofZ_R; numR; field; lra. Qed.
  Lemma base_p2g_cov : forall a x, (Z.of_nat (lat_n a) <= 2147483647)%Z -> covered a x ->
    base_p2g p a x = Ok (cell_of a x - 1)%Z.
  Proof.
    intros a x Hn [H1 H2]. unfold base_p2g.
    change (nmul ?u ?v) with (u * v). rewrite one_over_dx_R. numR.
    change (IZR (Zfloor ((x - ax_c a) / dx p))) with (nfloor ((x - ax_c a) / dx p)).
    rewrite to_int_floor by (unfold cell_of in *; lia). simpl. unfold cell_of in *.
    unfold int_ok. destruct (Z.leb_spec (-2147483648) (Zfloor ((x - ax_c a) / dx p) - 1)); [|lia].
    destruct (Z.leb_spec (Zfloor ((x - ax_c a) / dx p) - 1) 2147483647); [|lia]. simpl. f_equal. lia.
  Qed.
  Lemma base_g2p_cov : forall a x, (Z.of_nat (lat_n a) <= 2147483647)%Z -> covered a x ->
    base_g2p p a x = Ok (cell_of a x - 1)%Z.
  Proof.
    intros a x Hn [H1 H2]. unfold base_g2p.
    change (nmul ?u ?v) with (u * v). rewrite one_over_dx_R, nofZ_R. numR. rewrite <- minus_IZR.
    unfold cell_of in *. rewrite to_uint_IZR; auto. lia.
  Qed.
  (** Conversely, when grid-to-particle does not hit undefined behaviour the particle is covered,
      so particle-to-grid uses the same nodes. *)
  Lemma base_g2p_inv : forall a x b, base_g2p p a x = Ok b -> b = (cell_of a x - 1)%Z /\ (1 <= cell_of a x)%Z.
  Proof.
    intros a x b H. unfold base_g2p in H. apply to_uint_inv in H.
    change (nmul ?u ?v) with (u * v) in H. rewrite one_over_dx_R, nofZ_R in H.
    revert H. numR. rewrite <- minus_IZR, Ztrunc_IZR. unfold cell_of. intros [E ?]. lia.
  Qed.

  Definition axitem (a : Axis R) (x : R) (i : Z) : AxItem R :=
    let xi := ax_c a + IZR i * dx p in
    mkAxItem i xi (N (spline p) ((x - xi) * one_over_dx p)) (dNdu (spline p) ((x - xi) * one_over_dx p) * one_over_dx p)%num.

  Lemma ax_items_cov : forall a x b, lattice (dx p) a -> (0 <= b)%Z -> (b + 3 < Z.of_nat (lat_n a))%Z ->
    ax_items p a x b = Ok (map (fun d => axitem a x (b + d)%Z) [0; 1; 2; 3]%Z).
  Proof.
    intros a x b HL H0 H3. unfold ax_items. apply mapM_total. intros d Hd.
    unfold ax_item. rewrite (lattice_rd _ _ _ HL); [reflexivity|]. simpl in Hd. lia.
  Qed.
  Lemma ax_items_inv : forall a x b l, lattice (dx p) a -> ax_items p a x b = Ok l ->
    (0 <= b)%Z /\ (b + 3 < Z.of_nat (lat_n a))%Z.
  Proof.
    intros a x b l HL H. unfold ax_items in H. apply mapM_Ok in H.
    inversion H as [|? y0 ? l0 A0 B0]; subst. inversion B0 as [|? y1 ? l1 A1 B1]; subst.
    inversion B1 as [|? y2 ? l2 A2 B2]; subst. inversion B2 as [|? y3 ? l3 A3 B3]; subst.
    unfold ax_item in A0, A3. invb. apply rd_range in E. apply rd_range in E0. unfold lat_n. lia.
  Qed.
End Axis.

(** ** Node numbering, C07 *)
Lemma wrapu_small : forall z, (0 <= z < 4294967296)%Z -> wrapu z = z.
Proof. intros; unfold wrapu; apply Z.mod_small; auto. Qed.
Lemma ind2_val : forall nx ny i j, (0 <= i < nx)%Z -> (0 <= j < ny)%Z -> (nx * ny <= 4294967295)%Z ->
  ind2 ny i j = (i * ny + j)%Z /\ (0 <= i * ny + j < nx * ny)%Z.
Proof.
  intros. assert (0 <= i * ny)%Z by nia. assert (i * ny + j < nx * ny)%Z by nia.
  unfold ind2. rewrite (wrapu_small (i * ny)), wrapu_small by lia. split; lia.
Qed.
Lemma ind3_val : forall nx ny nz i j k, (0 <= i < nx)%Z -> (0 <= j < ny)%Z -> (0 <= k < nz)%Z ->
  (nx * ny * nz <= 4294967295)%Z ->
  ind3 ny nz i j k = ((i * ny + j) * nz + k)%Z /\ (0 <= (i * ny + j) * nz + k < nx * ny * nz)%Z.
Proof.
  intros. assert (0 <= i * ny)%Z by nia. assert (i * ny + j < nx * ny)%Z by nia.
  assert (nx * ny <= nx * ny * nz)%Z by nia.
  assert (0 <= (i * ny + j) * nz)%Z by nia.
  assert ((i * ny + j) * nz + k < nx * ny * nz)%Z by nia.
  unfold ind3. rewrite (wrapu_small (i * ny)) by lia. rewrite (wrapu_small (i * ny + j)) by lia.
  rewrite (wrapu_small ((i * ny + j) * nz)) by lia. rewrite wrapu_small by lia. split; lia.
Qed.
Lemma lin_inj : forall ny i j i' j', (0 <= j < ny)%Z -> (0 <= j' < ny)%Z ->
  (i * ny + j = i' * ny + j')%Z -> i = i' /\ j = j'.
Proof.
  intros. assert (i = i') by nia. subst. lia.
Qed.
