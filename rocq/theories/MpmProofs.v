(** * MpmProofs: a whole time step as sums over all particles and all nodes. *)
From Coq Require Import Reals ZArith Lra Lia List Bool Permutation.
From Coquelicot Require Import Derive.
From Flocq Require Import Core.Raux.
From Verif Require Import Num NumR Tools Lin Types Remesh Objects Transfer Rma Plastic Pbc Step Save Spec SpecStep SpecMech SpecMaterial SpecMpm
  LinProofs ResProofs KernelProofs GridProofs StencilProofs IndexProofs GradProofs AccumProofs P2GProofs ConsProofs MuslProofs RemeshProofs
  PloopProofs PbcProofs StepProofs StepMech StepField PlasticModels MaterialStep OutputProofs.
Import ListNotations.
Local Open Scope R_scope.

(** ** Kernel *)
Lemma N_far : forall s (u : R), 2 <= Rabs u -> N s u = 0 /\ dNdu s u = 0.
Proof. intros s u H. apply N_support. destruct s; lra. Qed.
Lemma tpow_tp : forall d t, (0 < d)%nat -> tpow d t = tp t ^ d.
Proof. intros d t Hd. unfold tpow, tp. destruct (Rle_dec t 0). - rewrite Rmax_left by lra. rewrite pow_i; auto. - now rewrite Rmax_right by lra. Qed.
Theorem kernel_bspline : forall s (u : R), N s u = bspline (degree s) u.
Proof.
  intros s u. destruct s; unfold bspline, degree; cbn [seq Nat.add Rsum]; rewrite !tpow_tp by lia; unfold Binomial.C; cbn [fact Nat.sub Nat.mul Nat.add]; cbn [INR pow].
  - unfold N. kern_tp.
  - unfold N. rewrite N2_tp. match goal with |- _ = ?r => match r with context [tp (u + ?a - 0)] => idtac end end.
    replace (u + (1 + 1 + 1) / 2 - 0) with (u - - (3/2)) by field. replace (u + (1 + 1 + 1) / 2 - 1) with (u - - (1/2)) by field.
    replace (u + (1 + 1 + 1) / 2 - (1 + 1)) with (u - 1/2) by field. replace (u + (1 + 1 + 1) / 2 - (1 + 1 + 1)) with (u - 3/2) by field. field.
  - unfold N. rewrite N3_tp. replace (u + (1 + 1 + 1 + 1) / 2 - 0) with (u - - 2) by field. replace (u + (1 + 1 + 1 + 1) / 2 - 1) with (u - - 1) by field.
    replace (u + (1 + 1 + 1 + 1) / 2 - (1 + 1)) with (u - 0) by field. replace (u + (1 + 1 + 1 + 1) / 2 - (1 + 1 + 1)) with (u - 1) by field.
    replace (u + (1 + 1 + 1 + 1) / 2 - (1 + 1 + 1 + 1)) with (u - 2) by field. field.
Qed.

(** ** Nodes and stencils *)
Section Nodes.
  Context {G : Geo R} {GL : GeoLaws G}.
  Lemma map_flat_map : forall X Y Z (f : Y -> Z) (g : X -> list Y) l, map f (flat_map g l) = flat_map (fun x => map f (g x)) l.
  Proof. induction l; cbn; auto. now rewrite map_app, IHl. Qed.
  Lemma positions_save : forall axes, length axes = dim -> positions axes = grid_x_save axes.
  Proof.
    intros axes L. destruct (axes_cases axes L) as [(D & ax & ay & ->)|(D & ax & ay & az & ->)]; unfold positions, grid_x_save; cbn [lattice_points].
    - rewrite map_flat_map. apply flat_map_ext. intros c. rewrite map_map, map_flat_map. cbn [map].
      induction (ax_co ay) as [|b r IH]; cbn [flat_map map app]; auto. rewrite IH. f_equal. vx. rewrite vget_tab by auto. rewrite D in Hk. destruct k as [|[|]]; cbn; auto; lia.
    - rewrite map_flat_map. apply flat_map_ext. intros c. rewrite map_map, map_flat_map. apply flat_map_ext. intros b. rewrite map_map, map_flat_map. cbn [map].
      induction (ax_co az) as [|d r IH]; cbn [flat_map map app]; auto. rewrite IH. f_equal. vx. rewrite vget_tab by auto. rewrite D in Hk. destruct k as [|[|[|]]]; cbn; auto; lia.
  Qed.

  Variable p : Par R.
  Hypothesis Hdx : 0 < dx p.
  Lemma positions_spec : forall axes, GridOk p axes -> positions axes = map (node_pos p axes) (seq 0 (Z.to_nat (prodlen axes))).
  Proof. intros axes GO. rewrite positions_save by (exact (go_dim _ _ GO)). now apply grid_x_save_spec. Qed.

  (** One axis: the four stencil nodes are all the nodes with a weight. *)
  Definition indz (z i : Z) : R := if (i =? z)%Z then 1 else 0.
  Lemma axis_pick : forall a x z, covered p a x ->
    Rsum (fun i => indz z (ai_i i) * ai_w i) (ax_list p a x) = N (spline p) ((x - (ax_c a + IZR z * dx p)) / dx p) /\
    Rsum (fun i => indz z (ai_i i) * ai_g i) (ax_list p a x) = dNdu (spline p) ((x - (ax_c a + IZR z * dx p)) / dx p) * / dx p.
  Proof.
    intros a x z C. pose proof (Zfloor_bounds ((x - ax_c a) / dx p)) as FB. fold (cell_of p a x) in FB. set (c := cell_of p a x) in *.
    set (u := (x - ax_c a) / dx p) in *.
    assert (EU : forall i : Z, (x - (ax_c a + IZR i * dx p)) / dx p = u - IZR i) by (intros; unfold u; field; lra).
    unfold ax_list. fold c. cbn [map Rsum axitem ai_i ai_w ai_g]. rewrite !one_over_dx_R, !EU by auto. numR.
    destruct (Z_lt_le_dec z (c - 1)) as [Z1|Z1]; [|destruct (Z_lt_le_dec (c + 2) z) as [Z2|Z2]].
    - assert (H : 2 <= Rabs (u - IZR z)) by (apply Rle_trans with (u - IZR z); [|apply Rle_abs]; assert (z + 2 <= c)%Z by lia; apply IZR_le in H; rewrite plus_IZR in H; lra).
      destruct (N_far (spline p) _ H) as (-> & ->). unfold indz. rewrite !(proj2 (Z.eqb_neq _ _)) by lia. split; ring.
    - assert (H : 2 <= Rabs (u - IZR z)) by (rewrite Rabs_minus_sym; apply Rle_trans with (IZR z - u); [|apply Rle_abs]; assert (c + 3 <= z)%Z by lia; apply IZR_le in H; rewrite plus_IZR in H; lra).
      destruct (N_far (spline p) _ H) as (-> & ->). unfold indz. rewrite !(proj2 (Z.eqb_neq _ _)) by lia. split; ring.
    - unfold indz. assert (z = c - 1 + 0 \/ z = c - 1 + 1 \/ z = c - 1 + 2 \/ z = c - 1 + 3)%Z as [-> |[-> |[-> | ->]]] by lia;
        repeat match goal with |- context [(?i =? ?j)%Z] => first [rewrite (proj2 (Z.eqb_eq i j)) by lia | rewrite (proj2 (Z.eqb_neq i j)) by lia] end; cbv iota; split; unfold Rdiv; ring.
  Qed.

  Notation NN X x := (N (spline p) ((x - X) / dx p)).
  Notation DD X x := (dNdu (spline p) ((x - X) / dx p) * / dx p).
  Definition apart (X x : TV) : Prop := forall k (n : Z), (k < dim)%nat -> vget x k <> vget X k + IZR n * dx p.
  Lemma dweight2 : forall X x, dim = 2%nat -> (spline p = Deg1 -> apart X x) ->
    dweight p X x 0 = DD (vget X 0) (vget x 0) * NN (vget X 1) (vget x 1) /\
    dweight p X x 1 = NN (vget X 0) (vget x 0) * DD (vget X 1) (vget x 1).
  Proof.
    intros X x D A. unfold dweight. split; apply is_derive_unique.
    - apply (Rderive_ext (fun t => 1 * NN (vget X 0) t * NN (vget X 1) (vget x 1))).
      { intros t. rewrite weight2, !vget_set by (auto; lia). cbn [Nat.eqb]. ring. }
      rewrite <- (Rmult_1_l (dNdu _ _ * _)). apply derive_mult_const, N_scaled_derive; auto. intros E n. apply A; auto; lia.
    - apply (Rderive_ext (fun t => NN (vget X 0) (vget x 0) * NN (vget X 1) t * 1)).
      { intros t. rewrite weight2, !vget_set by (auto; lia). cbn [Nat.eqb]. ring. }
      rewrite <- (Rmult_1_r (NN _ _ * _)). apply derive_mult_const, N_scaled_derive; auto. intros E n. apply A; auto; lia.
  Qed.
  Lemma dweight3 : forall X x, dim = 3%nat -> (spline p = Deg1 -> apart X x) ->
    dweight p X x 0 = DD (vget X 0) (vget x 0) * NN (vget X 1) (vget x 1) * NN (vget X 2) (vget x 2) /\
    dweight p X x 1 = NN (vget X 0) (vget x 0) * DD (vget X 1) (vget x 1) * NN (vget X 2) (vget x 2) /\
    dweight p X x 2 = NN (vget X 0) (vget x 0) * NN (vget X 1) (vget x 1) * DD (vget X 2) (vget x 2).
  Proof.
    intros X x D A. unfold dweight. split; [|split]; apply is_derive_unique.
    - apply (Rderive_ext (fun t => 1 * NN (vget X 0) t * (NN (vget X 1) (vget x 1) * NN (vget X 2) (vget x 2)))).
      { intros t. rewrite weight3, !vget_set by (auto; lia). cbn [Nat.eqb]. ring. }
      rewrite Rmult_assoc, <- (Rmult_1_l (dNdu _ _ * _)). apply derive_mult_const, N_scaled_derive; auto. intros E n. apply A; auto; lia.
    - apply (Rderive_ext (fun t => NN (vget X 0) (vget x 0) * NN (vget X 1) t * NN (vget X 2) (vget x 2))).
      { intros t. rewrite weight3, !vget_set by (auto; lia). cbn [Nat.eqb]. ring. }
      apply derive_mult_const, N_scaled_derive; auto. intros E n. apply A; auto; lia.
    - apply (Rderive_ext (fun t => (NN (vget X 0) (vget x 0) * NN (vget X 1) (vget x 1)) * NN (vget X 2) t * 1)).
      { intros t. rewrite weight3, !vget_set by (auto; lia). cbn [Nat.eqb]. ring. }
      rewrite <- (Rmult_1_r (NN _ _ * NN _ _ * (_ * _))). apply derive_mult_const, N_scaled_derive; auto. intros E n. apply A; auto; lia.
  Qed.

  (** The stencil entry of a node, if any, carries the weight of the node; other nodes have none. *)
  Lemma Rsum_prod2 : forall X Y (f : X -> R) (g : Y -> R) la lb, Rsum (fun a => Rsum (fun b => f a * g b) lb) la = Rsum f la * Rsum g lb.
  Proof. intros. rewrite (Rsum_ext _ (fun a => Rsum g lb * f a)); [now rewrite Rsum_scal, Rmult_comm|]. intros a _. rewrite Rsum_scal. ring. Qed.
  Lemma Rsum_prod3 : forall X Y Z (f : X -> R) (g : Y -> R) (h : Z -> R) la lb lc,
    Rsum (fun a => Rsum (fun b => Rsum (fun c => f a * g b * h c) lc) lb) la = Rsum f la * Rsum g lb * Rsum h lc.
  Proof.
    intros. rewrite (Rsum_ext _ (fun a => Rsum (fun b => f a * (g b * Rsum h lc)) lb)).
    - rewrite (Rsum_prod2 _ _ f (fun b => g b * Rsum h lc)). rewrite (Rsum_ext (fun b => g b * Rsum h lc) (fun b => Rsum h lc * g b)) by (intros; ring). rewrite Rsum_scal. ring.
    - intros a _. apply Rsum_ext. intros b _. rewrite Rsum_scal. ring.
  Qed.
  Lemma ax_in : forall a x i, covered p a x -> In i (ax_list p a x) -> (0 <= ai_i i < Z.of_nat (lat_n a))%Z.
  Proof. intros a x i (C1 & C2) Hi. unfold ax_list in Hi. apply in_map_iff in Hi. destruct Hi as (d & <- & Hd). cbn [axitem ai_i]. cbn in Hd. lia. Qed.
  Theorem node_pick : forall axes x j, GridOk p axes -> Covered p axes x -> (Z.of_nat j < prodlen axes)%Z ->
    Rsum (fun it => ind j it * it_w it) (items_of p axes x) = weight p (node_pos p axes j) x /\
    ((spline p = Deg1 -> off_lines p axes x) -> forall k, (k < dim)%nat ->
      Rsum (fun it => ind j it * vget (it_g it) k) (items_of p axes x) = dweight p (node_pos p axes j) x k).
  Proof.
    intros axes x j GO C Hj.
    destruct (axes_cases axes (go_dim _ _ GO)) as [(D & ax & ay & ->)|(D & ax & ay & az & ->)].
    - destruct (fits2 _ _ _ GO) as (Lx & Ly & Fx & Fy). pose proof (lat_pos p _ Lx) as P0. pose proof (lat_pos p _ Ly) as P1'.
      pose proof (C 0%nat ax eq_refl) as Cx. pose proof (C 1%nat ay eq_refl) as Cy. pose proof (go_fit _ _ GO) as Ft. unfold prodlen in Ft, Hj. cbn [fold_right] in Ft, Hj. rewrite Z.mul_1_r in Ft, Hj. fold (lat_n ax) (lat_n ay) in Ft, Hj.
      set (nx := lat_n ax) in *. set (ny := lat_n ay) in *. set (jx := (j / ny)%nat). set (jy := (j mod ny)%nat).
      assert (Ej : (j = jx * ny + jy)%nat) by (unfold jx, jy; rewrite Nat.mul_comm; apply Nat.div_mod; lia). assert (Hy : (jy < ny)%nat) by (apply Nat.mod_upper_bound; lia).
      assert (IN : forall a b, In a (ax_list p ax (vget x 0)) -> In b (ax_list p ay (vget x 1)) -> ind j (item2 (ax_n ay) a b) = indz (Z.of_nat jx) (ai_i a) * indz (Z.of_nat jy) (ai_i b)).
      { intros a b Ha Hb. pose proof (ax_in _ _ _ Cx Ha) as Ia. pose proof (ax_in _ _ _ Cy Hb) as Ib. fold nx in Ia. fold ny in Ib. unfold ind, item2. cbn [it_idx]. rewrite ax_n_val by auto. fold ny.
        destruct (ind2_val (Z.of_nat nx) (Z.of_nat ny) (ai_i a) (ai_i b)) as [-> _]; auto. unfold indz.
        destruct (Z.eqb_spec (ai_i a) (Z.of_nat jx)) as [E1|E1]; destruct (Z.eqb_spec (ai_i b) (Z.of_nat jy)) as [E2|E2].
        - rewrite (proj2 (Z.eqb_eq _ _)) by (rewrite E1, E2; lia). ring.
        - rewrite (proj2 (Z.eqb_neq _ _)); [ring|]. intros H. apply E2. apply (lin_inj (Z.of_nat ny) (ai_i a) (ai_i b) (Z.of_nat jx) (Z.of_nat jy)); lia.
        - rewrite (proj2 (Z.eqb_neq _ _)); [ring|]. intros H. apply E1. apply (lin_inj (Z.of_nat ny) (ai_i a) (ai_i b) (Z.of_nat jx) (Z.of_nat jy)); lia.
        - rewrite (proj2 (Z.eqb_neq _ _)); [ring|]. intros H. apply E1. apply (lin_inj (Z.of_nat ny) (ai_i a) (ai_i b) (Z.of_nat jx) (Z.of_nat jy)); lia. }
      destruct (axis_pick ax (vget x 0) (Z.of_nat jx) Cx) as (Wx & Gx). destruct (axis_pick ay (vget x 1) (Z.of_nat jy) Cy) as (Wy & Gy).
      assert (X0 : vget (node_pos p [ax; ay] j) 0 = ax_c ax + IZR (Z.of_nat jx) * dx p) by (unfold node_pos, co; rewrite !vget_set by lia; cbn [Nat.eqb]; fold ny jx; now rewrite INR_IZR_INZ).
      assert (X1 : vget (node_pos p [ax; ay] j) 1 = ax_c ay + IZR (Z.of_nat jy) * dx p) by (unfold node_pos, co; rewrite !vget_set by lia; cbn [Nat.eqb]; fold ny jy; now rewrite INR_IZR_INZ).
      set (X := node_pos p [ax; ay] j) in *. unfold items_of, items2. rewrite <- X0 in Wx, Gx. rewrite <- X1 in Wy, Gy. split.
      + rewrite weight2, <- Wx, <- Wy by auto. rewrite <- Rsum_prod2. rewrite Rsum_flat_map. apply Rsum_ext. intros a Ha. rewrite Rsum_map. apply Rsum_ext. intros b Hb. rewrite IN by auto. unfold item2. cbn [it_w]. numR. ring.
      + intros Off k Hk. assert (A : spline p = Deg1 -> apart X x).
        { intros E k' n Hk' H. assert (k' = 0 \/ k' = 1)%nat as [-> | ->] by lia.
          - apply (Off E 0%nat ax eq_refl (Z.of_nat jx + n)%Z). rewrite plus_IZR, H, X0. ring.
          - apply (Off E 1%nat ay eq_refl (Z.of_nat jy + n)%Z). rewrite plus_IZR, H, X1. ring. }
        destruct (dweight2 X x D A) as (D0 & D1). assert (k = 0 \/ k = 1)%nat as [-> | ->] by lia.
        * rewrite D0, <- Gx, <- Wy, <- Rsum_prod2. rewrite Rsum_flat_map. apply Rsum_ext. intros a Ha. rewrite Rsum_map. apply Rsum_ext. intros b Hb. rewrite IN by auto. unfold item2. cbn [it_g]. rewrite !vget_set by lia. cbn [Nat.eqb]. numR. ring.
        * rewrite D1, <- Gy, <- Wx, <- Rsum_prod2. rewrite Rsum_flat_map. apply Rsum_ext. intros a Ha. rewrite Rsum_map. apply Rsum_ext. intros b Hb. rewrite IN by auto. unfold item2. cbn [it_g]. rewrite !vget_set by lia. cbn [Nat.eqb]. numR. ring.
    - destruct (fits3 _ _ _ _ GO) as (Lx & Ly & Lz & Fx & Fy & Fz & Fxy). pose proof (lat_pos p _ Lx) as P0. pose proof (lat_pos p _ Ly) as P1'. pose proof (lat_pos p _ Lz) as P2'.
      pose proof (C 0%nat ax eq_refl) as Cx. pose proof (C 1%nat ay eq_refl) as Cy. pose proof (C 2%nat az eq_refl) as Cz. pose proof (go_fit _ _ GO) as Ft. unfold prodlen in Ft, Hj. cbn [fold_right] in Ft, Hj. rewrite Z.mul_1_r in Ft, Hj. fold (lat_n ax) (lat_n ay) (lat_n az) in Ft, Hj.
      set (nx := lat_n ax) in *. set (ny := lat_n ay) in *. set (nz := lat_n az) in *. set (m := (j / nz)%nat). set (jz := (j mod nz)%nat). set (jx := (m / ny)%nat). set (jy := (m mod ny)%nat).
      assert (Ej : (j = m * nz + jz)%nat) by (unfold m, jz; rewrite Nat.mul_comm; apply Nat.div_mod; lia). assert (Hz : (jz < nz)%nat) by (apply Nat.mod_upper_bound; lia).
      assert (Em : (m = jx * ny + jy)%nat) by (unfold jx, jy; rewrite Nat.mul_comm; apply Nat.div_mod; lia). assert (Hy : (jy < ny)%nat) by (apply Nat.mod_upper_bound; lia).
      assert (IN : forall a b c, In a (ax_list p ax (vget x 0)) -> In b (ax_list p ay (vget x 1)) -> In c (ax_list p az (vget x 2)) ->
        ind j (item3 (ax_n ay) (ax_n az) a b c) = indz (Z.of_nat jx) (ai_i a) * indz (Z.of_nat jy) (ai_i b) * indz (Z.of_nat jz) (ai_i c)).
      { intros a b c Ha Hb Hc. pose proof (ax_in _ _ _ Cx Ha) as Ia. pose proof (ax_in _ _ _ Cy Hb) as Ib. pose proof (ax_in _ _ _ Cz Hc) as Ic. fold nx in Ia. fold ny in Ib. fold nz in Ic. unfold ind, item3. cbn [it_idx]. rewrite !ax_n_val by auto. fold ny nz.
        destruct (ind3_val (Z.of_nat nx) (Z.of_nat ny) (Z.of_nat nz) (ai_i a) (ai_i b) (ai_i c)) as [-> _]; auto; [lia|]. unfold indz.
        assert (NE : (ai_i a <> Z.of_nat jx \/ ai_i b <> Z.of_nat jy \/ ai_i c <> Z.of_nat jz) -> ((ai_i a * Z.of_nat ny + ai_i b) * Z.of_nat nz + ai_i c =? Z.of_nat j)%Z = false).
        { intros H. apply Z.eqb_neq. intros E. destruct (lin_inj (Z.of_nat nz) (ai_i a * Z.of_nat ny + ai_i b) (ai_i c) (Z.of_nat m) (Z.of_nat jz)) as (Q1 & Q2); try lia.
          destruct (lin_inj (Z.of_nat ny) (ai_i a) (ai_i b) (Z.of_nat jx) (Z.of_nat jy)) as (Q3 & Q4); try lia. }
        destruct (Z.eqb_spec (ai_i a) (Z.of_nat jx)) as [E1|E1]; [|rewrite NE by auto; ring]. destruct (Z.eqb_spec (ai_i b) (Z.of_nat jy)) as [E2|E2]; [|rewrite NE by auto; ring].
        destruct (Z.eqb_spec (ai_i c) (Z.of_nat jz)) as [E3|E3]; [|rewrite NE by auto; ring].
        rewrite (proj2 (Z.eqb_eq _ _)); [ring|]. rewrite E1, E2, E3, Ej, Em. lia. }
      destruct (axis_pick ax (vget x 0) (Z.of_nat jx) Cx) as (Wx & Gx). destruct (axis_pick ay (vget x 1) (Z.of_nat jy) Cy) as (Wy & Gy). destruct (axis_pick az (vget x 2) (Z.of_nat jz) Cz) as (Wz & Gz).
      assert (X0 : vget (node_pos p [ax; ay; az] j) 0 = ax_c ax + IZR (Z.of_nat jx) * dx p) by (unfold node_pos, co; rewrite !vget_set by lia; cbn [Nat.eqb]; fold ny nz; fold m; fold jx; now rewrite INR_IZR_INZ).
      assert (X1 : vget (node_pos p [ax; ay; az] j) 1 = ax_c ay + IZR (Z.of_nat jy) * dx p) by (unfold node_pos, co; rewrite !vget_set by lia; cbn [Nat.eqb]; fold ny nz; fold m; fold jy; now rewrite INR_IZR_INZ).
      assert (X2 : vget (node_pos p [ax; ay; az] j) 2 = ax_c az + IZR (Z.of_nat jz) * dx p) by (unfold node_pos, co; rewrite !vget_set by lia; cbn [Nat.eqb]; fold ny nz; fold jz; now rewrite INR_IZR_INZ).
      set (X := node_pos p [ax; ay; az] j) in *. unfold items_of, items3. rewrite <- X0 in Wx, Gx. rewrite <- X1 in Wy, Gy. rewrite <- X2 in Wz, Gz. split.
      + rewrite weight3, <- Wx, <- Wy, <- Wz by auto. rewrite <- Rsum_prod3. rewrite Rsum_flat_map. apply Rsum_ext. intros a Ha. rewrite Rsum_flat_map. apply Rsum_ext. intros b Hb. rewrite Rsum_map. apply Rsum_ext. intros c Hc. rewrite IN by auto. unfold item3. cbn [it_w]. numR. ring.
      + intros Off k Hk. assert (A : spline p = Deg1 -> apart X x).
        { intros E k' n Hk' H. assert (k' = 0 \/ k' = 1 \/ k' = 2)%nat as [-> |[-> | ->]] by lia.
          - apply (Off E 0%nat ax eq_refl (Z.of_nat jx + n)%Z). rewrite plus_IZR, H, X0. ring.
          - apply (Off E 1%nat ay eq_refl (Z.of_nat jy + n)%Z). rewrite plus_IZR, H, X1. ring.
          - apply (Off E 2%nat az eq_refl (Z.of_nat jz + n)%Z). rewrite plus_IZR, H, X2. ring. }
        destruct (dweight3 X x D A) as (D0 & D1 & D2). assert (k = 0 \/ k = 1 \/ k = 2)%nat as [-> |[-> | ->]] by lia.
        * rewrite D0, <- Gx, <- Wy, <- Wz, <- Rsum_prod3. rewrite Rsum_flat_map. apply Rsum_ext. intros a Ha. rewrite Rsum_flat_map. apply Rsum_ext. intros b Hb. rewrite Rsum_map. apply Rsum_ext. intros c Hc. rewrite IN by auto. unfold item3. cbn [it_g]. rewrite !vget_set by lia. cbn [Nat.eqb]. numR. ring.
        * rewrite D1, <- Gy, <- Wx, <- Wz, <- Rsum_prod3. rewrite Rsum_flat_map. apply Rsum_ext. intros a Ha. rewrite Rsum_flat_map. apply Rsum_ext. intros b Hb. rewrite Rsum_map. apply Rsum_ext. intros c Hc. rewrite IN by auto. unfold item3. cbn [it_g]. rewrite !vget_set by lia. cbn [Nat.eqb]. numR. ring.
        * rewrite D2, <- Gz, <- Wx, <- Wy, <- Rsum_prod3. rewrite Rsum_flat_map. apply Rsum_ext. intros a Ha. rewrite Rsum_flat_map. apply Rsum_ext. intros b Hb. rewrite Rsum_map. apply Rsum_ext. intros c Hc. rewrite IN by auto. unfold item3. cbn [it_g]. rewrite !vget_set by lia. cbn [Nat.eqb]. numR. ring.
  Qed.

  (** Sums over a stencil are sums over the grid. *)
  Lemma Rsum_combine : forall X Y (f : X * Y -> R) (h : nat -> X) (d : Y) l, Rsum f (combine (map h (seq 0 (length l))) l) = Rsum (fun j => f (h j, nth j l d)) (seq 0 (length l)).
  Proof.
    intros X Y f h d l. revert h. induction l as [|y l IH]; intros h; cbn [length seq map combine Rsum nth]; auto.
    f_equal. rewrite <- seq_shift, map_map, Rsum_map. apply (IH (fun j => h (S j))).
  Qed.
  Lemma gather_nodes : forall axes x (nodes : list (Node R)) (w : Item R -> R) (W : TV -> R) (phi : TV -> Node R -> R), GridOk p axes -> Covered p axes x ->
    Z.of_nat (length nodes) = prodlen axes ->
    (forall j, (Z.of_nat j < prodlen axes)%Z -> Rsum (fun it => ind j it * w it) (items_of p axes x) = W (node_pos p axes j)) ->
    Rsum (fun it => w it * phi (it_x it) (nd_at nodes it)) (items_of p axes x)
    = Rsum (fun Xn => W (fst Xn) * phi (fst Xn) (snd Xn)) (combine (positions axes) nodes).
  Proof.
    intros axes x nodes w W phi GO C L HW. rewrite positions_spec by auto. rewrite <- L, Nat2Z.id.
    rewrite (Rsum_combine _ _ (fun Xn => W (fst Xn) * phi (fst Xn) (snd Xn)) (node_pos p axes) zero_node). cbn [fst snd].
    rewrite (Rsum_ext (fun j => W (node_pos p axes j) * phi (node_pos p axes j) (nth j nodes zero_node))
                      (fun j => Rsum (fun it => ind j it * (w it * phi (it_x it) (nd_at nodes it))) (items_of p axes x))).
    - rewrite Rsum_swap. apply Rsum_ext. intros it Hit. destruct (stencil_cov p Hdx axes x GO C) as (_ & _ & S). pose proof (sl_idx _ _ _ _ S it Hit) as Hi.
      rewrite (Rsum_ext _ (fun i => if Nat.eqb (Z.to_nat (it_idx it)) i then w it * phi (it_x it) (nd_at nodes it) else 0)).
      + symmetry. apply Rsum_seq_pick. lia.
      + intros i _. unfold ind. destruct (Z.eqb_spec (it_idx it) (Z.of_nat i)), (Nat.eqb_spec (Z.to_nat (it_idx it)) i); subst; try lra; exfalso; lia.
    - intros j Hj. apply in_seq in Hj. rewrite <- HW by lia. rewrite Rmult_comm, <- Rsum_scal. apply Rsum_ext. intros it Hit.
      destruct (ind_cases j it) as [(-> & Ei)|(-> & _)]; [|ring]. rewrite (stencil_pos p Hdx axes x it GO C Hit). unfold nd_at. rewrite Ei, Nat2Z.id. ring.
  Qed.
  Lemma gather_w : forall axes x (nodes : list (Node R)) (phi : TV -> Node R -> R), GridOk p axes -> Covered p axes x -> Z.of_nat (length nodes) = prodlen axes ->
    Rsum (fun it => it_w it * phi (it_x it) (nd_at nodes it)) (items_of p axes x) = interpolated p (combine (positions axes) nodes) x phi.
  Proof. intros axes x nodes phi GO C L. apply (gather_nodes axes x nodes it_w (fun X => weight p X x)); auto. intros j Hj. now apply node_pick. Qed.
  Lemma gather_d : forall axes x (nodes : list (Node R)) (phi : TV -> Node R -> R) k, GridOk p axes -> Covered p axes x -> Z.of_nat (length nodes) = prodlen axes ->
    (spline p = Deg1 -> off_lines p axes x) -> (k < dim)%nat ->
    Rsum (fun it => vget (it_g it) k * phi (it_x it) (nd_at nodes it)) (items_of p axes x) = Rsum (fun Xn => dweight p (fst Xn) x k * phi (fst Xn) (snd Xn)) (combine (positions axes) nodes).
  Proof. intros axes x nodes phi k GO C L Off Hk. apply (gather_nodes axes x nodes (fun it => vget (it_g it) k) (fun X => dweight p X x k)); auto. intros j Hj. now apply node_pick. Qed.
End Nodes.

(** ** The grid after a step *)
Lemma sum_axes_sumd : forall (G : Geo R) (GL : GeoLaws G) f, sum_axes f = sumd f.
Proof. intros G GL f. unfold sum_axes. destruct gl_dim as [D|D]; unfold sumd; rewrite D; cbn; numR; ring. Qed.

Section Law.
  Context {G : Geo R} {GL : GeoLaws G}.
  Variable p : Par R.
  Hypothesis Hdx : 0 < dx p.
  Hypothesis Hm : 0 < particle_mass p.
  Variable axes : list (Axis R).
  Hypothesis GO : GridOk p axes.
  Variable l : list (P1 R).
  Hypothesis Cov : forall q, In q l -> Covered p axes (q_x q).
  Hypothesis Nt : forall q, In q l -> no_tiny_weights p axes (q_x q).
  Hypothesis Ol : spline p = Deg1 -> forall q, In q l -> off_lines p axes (q_x q).
  Variable sched : list (list nat).
  Hypothesis Sc : thread_schedule sched (length l).
  Variable g1 : list (Node R).
  Hypothesis E1 : p2g p axes (pack l) sched (resizeGrid axes) = Ok g1.

  Lemma apic_scale_eq : apicDinverse p = apic_scale p.
  Proof using p Hdx. clear -Hdx. unfold apicDinverse, apic_scale. rewrite ?nofZ_R. destruct (spline p); numR; field; lra. Qed.
  Lemma carried_eq : forall (d : PD) it k, (k < dim)%nat -> forall B, (flip_ratio p < 0 -> d_B d = B) -> vget (d_v d) k + affine p d it k = carried p (d_v d) B (d_x d) (it_x it) k.
  Proof using p Hdx GL.
    intros d it k Hk B HB. unfold carried, affine. f_equal. destruct (Rltb_spec (flip_ratio p) 0) as [H|H]; destruct (Rlt_dec (flip_ratio p) 0); try lra.
    rewrite apic_scale_eq, HB, vget_mvec, (sum_axes_sumd G GL) by auto. rewrite Rmult_comm. f_equal. apply sumd_ext. intros j Hj. now rewrite vget_sub by auto.
  Qed.
  Notation its q := (items_of p axes (q_x q)).
  Notation np j := (node_pos p axes j).
  Lemma pick_sum : forall j (h : P1 R -> Item R -> R) (H : P1 R -> R), (Z.of_nat j < prodlen axes)%Z ->
    (forall q it, In q l -> In it (its q) -> it_x it = np j -> h q it = H q) ->
    Rsum (fun q => Rsum (fun it => ind j it * (it_w it * h q it)) (its q)) l = Rsum (fun q => weight p (np j) (q_x q) * H q) l.
  Proof.
    intros j h H Hj Hh. apply Rsum_ext. intros q Hq. rewrite <- (proj1 (node_pick p Hdx axes (q_x q) j GO (Cov q Hq) Hj)).
    rewrite Rmult_comm, <- Rsum_scal. apply Rsum_ext. intros it Hit. destruct (ind_cases j it) as [(-> & Ei)|(-> & _)]; [|ring].
    rewrite (Hh q it Hq Hit); [ring|]. rewrite (stencil_pos p Hdx axes (q_x q) it GO (Cov q Hq) Hit), Ei, Nat2Z.id. reflexivity.
  Qed.
  Lemma Mj_eq : forall j, (Z.of_nat j < prodlen axes)%Z -> Mj p axes l j = Rsum (fun q => weight p (np j) (q_x q)) l.
  Proof. intros j Hj. unfold Mj. apply Rsum_ext. intros q Hq. now apply node_pick; auto. Qed.
  Lemma Pj_eq : forall j k, (Z.of_nat j < prodlen axes)%Z -> (k < dim)%nat ->
    Pj p axes l j k = Rsum (fun q => weight p (np j) (q_x q) * carried p (q_v q) (q_B q) (q_x q) (np j) k) l.
  Proof.
    intros j k Hj Hk. unfold Pj. rewrite (pick_sum j (fun q it => vget (q_v q) k + affine p (pd p q) it k) (fun q => carried p (q_v q) (q_B q) (q_x q) (np j) k)); auto.
    intros q it _ _ <-. change (q_v q) with (d_v (pd p q)). change (q_x q) with (d_x (pd p q)). apply carried_eq; auto. intros Hf. unfold pd. cbn [d_B]. destruct (Rltb_spec (flip_ratio p) 0); [auto|lra].
  Qed.
  Lemma Fj_eq : forall j k, (Z.of_nat j < prodlen axes)%Z -> (k < dim)%nat ->
    Fj p axes l j k = Rsum (fun q => sum_axes (fun i => mget (q_tau q) k i * dweight p (np j) (q_x q) i)) l.
  Proof.
    intros j k Hj Hk. unfold Fj. apply Rsum_ext. intros q Hq. rewrite (sum_axes_sumd G GL).
    rewrite (Rsum_ext _ (fun it => sumd (fun i => mget (q_tau q) k i * (ind j it * vget (it_g it) i)))).
    - rewrite <- (sumd_Rsum_swap _ (fun i it => mget (q_tau q) k i * (ind j it * vget (it_g it) i))). apply sumd_ext. intros i Hi. rewrite Rsum_scal. f_equal.
      apply (proj2 (node_pick p Hdx axes (q_x q) j GO (Cov q Hq) Hj)); auto.
    - intros it _. rewrite vget_mvec by auto. rewrite <- sumd_scal. apply sumd_ext. intros; ring.
  Qed.
  Lemma node1_mu : use_mibf p = true -> forall j nd, nth_error g1 j = Some nd -> (Z.of_nat j < prodlen axes)%Z ->
    nd_fr nd = Rsum (fun q => weight p (np j) (q_x q) * h_muI (q_h q)) l / Rsum (fun q => weight p (np j) (q_x q)) l.
  Proof.
    intros Um j nd Hj Hr.
    destruct (accumulate_rep p Hdx axes (pack l) (length l) (map (pd p) l) sched (resizeGrid axes) GO (getds_pack p l)) as (nodes' & Ea & A); auto.
    { intros d Hd. apply in_map_iff in Hd. destruct Hd as (q & <- & Hq). exact (Cov q Hq). }
    { now apply (resize_length p). }
    pose proof E1 as E1'. unfold p2g in E1'. rewrite Ea in E1'. cbn [bind] in E1'. apply Ok_inj in E1'. rewrite <- E1' in Hj.
    rewrite nth_error_map in Hj. destruct (nth_error nodes' j) as [a|] eqn:Ha; [|discriminate]. cbn [option_map] in Hj.
    assert (En : p2g_finish_node p a = nd) by congruence. rewrite <- En. unfold p2g_finish_node. cbn [nd_fr]. rewrite Um. numR.
    assert (Vm : nd_m a = Mj p axes l j).
    { change (nd_m a) with (nval p Cm a). rewrite (rep_node p axes (map (pd p) l) nodes' j a A Ha Cm). unfold Mj.
      apply (ops_sum p axes l j Cm (fun q it => it_w it)); intros q it Hq Hit; [apply delta_m|].
      intros Hc. destruct (act_or p Hdx axes GO l Cov Nt q it Hq Hit) as [?|(_ & W & _)]; [congruence|auto]. }
    assert (Vr : nd_fr a = Rsum (fun q => weight p (np j) (q_x q) * h_muI (q_h q)) l).
    { transitivity (nval p Cr a); [unfold nval; now rewrite Um|]. rewrite (rep_node p axes (map (pd p) l) nodes' j a A Ha Cr).
      rewrite <- (pick_sum j (fun q _ => h_muI (q_h q)) (fun q => h_muI (q_h q))) by auto.
      apply (ops_sum p axes l j Cr (fun q it => it_w it * h_muI (q_h q))); intros q it Hq Hit; [rewrite delta_r by auto; unfold pd; cbn [d_mui]; now rewrite Um|].
      intros Hc. destruct (act_or p Hdx axes GO l Cov Nt q it Hq Hit) as [?|(_ & W & _)]; [congruence|]. rewrite W. ring. }
    rewrite Vm, Vr, Mj_eq by auto. reflexivity.
  Qed.

  Variables (plates : list (Plate R)) (dt : R) (grav : TV) (esched : list nat) (g2 : list (Node R)).
  Hypothesis Es : Permutation esched (seq 0 (Z.to_nat (grid_nodes axes))).
  Hypothesis E2 : euler p plates dt grav axes esched g1 = Ok g2.
  Lemma law_len : Z.of_nat (length g1) = prodlen axes.
  Proof. apply (len1 p Hdx axes GO l Cov Nt sched Sc g1 E1). Qed.
  Lemma F2_nth : forall X Y (Q : X -> Y -> Prop) l l', length l = length l' -> (forall j x y, nth_error l j = Some x -> nth_error l' j = Some y -> Q x y) -> Forall2 Q l l'.
  Proof.
    intros X Y Q la. induction la as [|x la IH]; intros [|y lb] L H; try discriminate; constructor.
    - now apply (H 0%nat).
    - apply IH; [cbn in L; lia|]. intros j a b Ha Hb. now apply (H (S j)).
  Qed.
  Lemma nodes_mass : length g2 = length g1 /\ forall j nd, nth_error g2 j = Some nd -> nd_m nd = Mj p axes l j * particle_mass p /\ 0 <= Mj p axes l j.
  Proof.
    destruct (euler_spec p plates dt grav axes esched g1 g2 GO Es law_len E2) as (L2 & H). split; auto. intros j nd' Hj'.
    assert (Lj : (j < length g2)%nat) by (apply nth_error_Some; congruence).
    destruct (nth_error g1 j) as [nd|] eqn:En; [|apply nth_error_None in En; lia]. destruct (H j nd En) as (nd'' & En' & Eg). assert (nd'' = nd') by congruence. subst nd''.
    destruct (proj2 (node1 p Hdx axes GO l Cov Nt sched Sc g1 E1) j nd En) as (A1 & _). split; [|apply (Mj_nonneg p Hdx axes GO l Cov)]. rewrite <- A1.
    unfold euler_node in En'. cbv zeta in En'. destruct (_ >? _)%num; [|apply Ok_inj in En'; congruence]. apply bind_Ok in En'. destruct En' as (new & _ & En'). apply Ok_inj in En'. rewrite <- En'. reflexivity.
  Qed.
  Theorem nodes_law : Forall2 (node_law p plates dt grav l) (positions axes) g2 /\
    forall j nd, nth_error g2 j = Some nd -> 0 < Mj p axes l j -> forall k, (k < dim)%nat -> vget (nd_flip nd) k = vget (nd_v nd) k - projected p l (np j) k.
  Proof.
    destruct (euler_spec p plates dt grav axes esched g1 g2 GO Es law_len E2) as (L2 & H).
    assert (K : forall j nd', nth_error g2 j = Some nd' -> node_law p plates dt grav l (np j) nd' /\
      (0 < Mj p axes l j -> forall k, (k < dim)%nat -> vget (nd_flip nd') k = vget (nd_v nd') k - projected p l (np j) k)).
    { intros j nd' Hj'. assert (Lj : (j < length g2)%nat) by (apply nth_error_Some; congruence). assert (Hj : (Z.of_nat j < prodlen axes)%Z) by (rewrite <- law_len; lia).
      destruct (nth_error g1 j) as [nd|] eqn:En; [|apply nth_error_None in En; lia]. destruct (H j nd En) as (nd'' & En' & Eg). assert (nd'' = nd') by congruence. subst nd''. clear Eg.
      destruct (proj2 (node1 p Hdx axes GO l Cov Nt sched Sc g1 E1) j nd En) as (A1 & A2 & A3 & A4 & A5).
      unfold euler_node in En'. cbv zeta in En'. rewrite nofZ_R in En'. revert En'. numR. intros En'. pose proof (Mj_nonneg p Hdx axes GO l Cov j) as M0. rewrite A1 in En'.
      destruct (Rltb_spec 0 (Mj p axes l j * particle_mass p)) as [Hp|Hp].
      - apply bind_Ok in En'. destruct En' as (new & Eb & En'). apply Ok_inj in En'. assert (MP : 0 < Mj p axes l j) by nra.
        assert (PR : forall k, (k < dim)%nat -> projected p l (np j) k = vget (nd_v nd) k) by (intros k Hk; unfold projected; rewrite <- Pj_eq, <- Mj_eq by auto; symmetry; now apply A4).
        rewrite <- En'. split; [|intros _ k Hk; cbn [nd_flip nd_v]; rewrite vget_sub, PR by auto; reflexivity].
        split; cbn [nd_m nd_v].
        + rewrite Mj_eq by auto. ring.
        + intros Hz. exfalso. lra.
        + intros _. eexists _, (nd_fr nd). split; [|split; [|exact Eb]].
          * intros k Hk. rewrite PR by auto. autorewrite with geo. rewrite (A3 k Hk). unfold internal. rewrite <- Fj_eq by auto. field. split; lra.
          * intros Um. now apply node1_mu.
      - apply Ok_inj in En'. assert (MP : Mj p axes l j = 0) by nra. rewrite <- En'. split; [|lra]. split.
        + rewrite A1, Mj_eq by auto. ring.
        + intros _. now apply A5.
        + rewrite A1, MP. lra. }
    split; [|intros j nd Hj; now apply K].
    rewrite (positions_spec p) by auto. apply F2_nth; [rewrite map_length, seq_length; pose proof law_len; lia|].
    intros j X nd HX Hnd. rewrite nth_error_map in HX. destruct (nth_error (seq 0 (Z.to_nat (prodlen axes))) j) as [i|] eqn:Ei; [|discriminate]. cbn in HX.
    assert (Lj : (j < Z.to_nat (prodlen axes))%nat) by (rewrite <- (seq_length (Z.to_nat (prodlen axes)) 0); apply nth_error_Some; congruence).
    rewrite (nth_error_nth' _ 0%nat), seq_nth in Ei by (rewrite ?seq_length; auto). injection Ei as <-. injection HX as <-. now apply K.
  Qed.
End Law.

(** ** Particles after a step *)
Lemma F2_and : forall X Y (Q Q' : X -> Y -> Prop) l l', Forall2 Q l l' -> Forall2 Q' l l' -> Forall2 (fun x y => Q x y /\ Q' x y) l l'.
Proof. intros X Y Q Q' l l' H. induction H; intros H'; inversion H'; subst; constructor; auto. Qed.
Lemma Rsum_nth2 : forall X Y (f : X -> R) (g : Y -> R) l l', length l = length l' -> (forall i x y, nth_error l i = Some x -> nth_error l' i = Some y -> f x = g y) -> Rsum f l = Rsum g l'.
Proof.
  intros X Y f g l. induction l as [|x l IH]; intros [|y l'] L H; try discriminate; cbn [Rsum]; auto. f_equal; [now apply (H 0%nat)|].
  apply IH; [cbn in L; lia|]. intros i a b Ha Hb. now apply (H (S i)).
Qed.
Lemma nth_error_combine : forall X Y (l : list X) (l' : list Y) i a b, nth_error l i = Some a -> nth_error l' i = Some b -> nth_error (combine l l') i = Some (a, b).
Proof. intros X Y l. induction l as [|x l IH]; intros [|y l'] [|i] a b Ha Hb; try discriminate; cbn in *; [congruence|auto]. Qed.
Lemma F2_at : forall X Y (Q : X -> Y -> Prop) l l', Forall2 Q l l' -> forall i a b, nth_error l i = Some a -> nth_error l' i = Some b -> Q a b.
Proof. intros X Y Q l l' H. induction H; intros [|i] a b Ha Hb; try discriminate; cbn in *; [congruence|eauto]. Qed.
Section StepLaw.
  Context {G : Geo R} {GL : GeoLaws G}.
  Variable svd : TM -> TM * TV * TM.
  Variable uabs : R -> R.
  Lemma particles_pack : forall l, particles (pack l) = l.
  Proof.
    intros l. unfold particles, pack. cbn [p_x p_v p_pic p_flip p_hist p_F p_B p_tau]. rewrite map_length.
    transitivity (map (fun q : P1 R => q) l); [|apply map_id]. apply seq_map_nth. intros i q Hi.
    rewrite !(nth_error_nth _ _ _ (map_nth_error _ _ _ Hi)). now destruct q.
  Qed.
  Lemma pack_inj : forall l l', pack l = pack l' -> l = l'.
  Proof. intros l l' H. rewrite <- (particles_pack l), H. apply particles_pack. Qed.

  Theorem step_laws : forall af p sc s0 s1 n, 0 < dx p -> 0 < particle_mass p -> use_pbc p = false -> valid_sched sc -> well_formed s0 n ->
    advanceStep svd uabs af p sc s0 = Ok s1 -> GridOk p (s_axes s1) -> regular_cloud p (s_axes s1) (p_x (s_p s0)) ->
    let l := particles (s_p s0) in let l1 := particles (s_p s1) in let pos := positions (s_axes s1) in
    exists grid, Forall2 (node_law p (s_plates s0) (s_dt s1) (s_grav s1) l) pos grid /\
      (if use_musl p then Forall2 (musl_law p (combine l l1)) (combine pos grid) (s_nodes s1) else s_nodes s1 = grid) /\
      Forall2 (particle_law svd uabs p (s_dt s1) l (combine pos grid) (combine pos (s_nodes s1))) l l1.
  Proof.
    intros af p sc s0 s1 n Hdx Hm Hpbc V W H GO RC. destruct (wf_pack s0 n W) as (l & Ll & E & Nn & Fi). cbv zeta.
    destruct (step_constitutive svd uabs af p sc s0 s1 n V W H) as (la & lb & Ea & _ & Eb & St).
    destruct (step_run svd uabs af p sc s0 s1 l V E Nn Fi H) as [Rn].
    assert (la = l) by (apply pack_inj; congruence). subst la.
    pose proof (r_cov svd uabs af p sc s0 s1 l Rn Hdx GO) as Cov.
    assert (Nt : forall q, In q l -> no_tiny_weights p (s_axes s1) (q_x q)) by (intros q Hq; apply RC; rewrite E; unfold pack; cbn [p_x]; now apply in_map).
    assert (Ol : spline p = Deg1 -> forall q, In q l -> off_lines p (s_axes s1) (q_x q)).
    { intros Hs q Hq. apply off_lines_iff. apply RC; auto. rewrite E; unfold pack; cbn [p_x]; now apply in_map. }
    pose proof (r_p2g svd uabs af p sc s0 s1 l Rn Hpbc) as E1. pose proof (ru_euler _ _ _ _ _ _ _ _ Rn) as E2. pose proof (r_len svd uabs af p sc s0 s1 l V Rn GO) as Len.
    pose proof (r_kins svd uabs af p sc s0 s1 l V Rn Hdx GO) as Ks. destruct (r_fin svd uabs af p sc s0 s1 l Rn) as (l1 & El1 & Fs).
    assert (lb = l1) by (apply pack_inj; congruence). subst lb.
    rewrite <- (ru_saxes _ _ _ _ _ _ _ _ Rn) in E2.
    set (axes := s_axes s1) in *. set (g1 := ru_g1 _ _ _ _ _ _ _ _ Rn) in *. set (g2 := ru_g2 _ _ _ _ _ _ _ _ Rn) in *. set (rs := ru_rs _ _ _ _ _ _ _ _ Rn) in *.
    destruct (nodes_law p Hdx Hm axes GO l Cov Nt Ol _ (vs_p2g sc V _) g1 E1 _ _ _ _ g2 (vs_euler sc V _) E2) as (NL & FL).
    rewrite E, El1, !particles_pack. exists g2. split; [exact NL|].
    assert (KF : Forall2 (fun q q1 => exists r, Kin svd uabs af p sc s0 s1 l Rn q r /\ Fin p s1 r q1) l l1).
    { eapply F2_trans; [|exact Ks|exact Fs]. intros q r q1 _ A B. exists (fst r). auto. }
    split.
    - pose proof (ru_rest _ _ _ _ _ _ _ _ Rn) as RR. destruct (use_musl p) eqn:Mu; [|exact (proj1 RR)].
      destruct RR as (g3 & rs3 & Hg & _ & Hn & _ & _). fold rs g2 in Hg. rewrite <- (ru_saxes _ _ _ _ _ _ _ _ Rn) in Hg. fold axes in Hg. rewrite Hn.
      set (lb := map (fun r => blend_of p (fst r)) rs) in *.
      assert (FB : Forall2 (fun q b => q_x b = q_x q) l lb) by (unfold lb; apply F2_map_r; eapply F2_impl; [|exact Ks]; intros q r _ Ki; exact (ki_x _ _ _ _ _ _ _ _ _ _ _ Ki)).
      assert (FB1 : Forall2 (fun b q1 => q_v b = q_v q1 /\ q_B b = q_B q1) lb l1).
      { unfold lb. apply F2_map_l. eapply F2_impl; [|exact Fs]. intros r q1 _ F1. cbv beta in F1 |- *. split; symmetry; [exact (fi_v _ _ _ _ F1)|exact (fi_B _ _ _ _ F1)]. }
      assert (Lb : length lb = length l) by (symmetry; exact (F2_length _ _ _ _ _ FB)). assert (L1 : length l1 = length l) by (rewrite <- Lb; symmetry; exact (F2_length _ _ _ _ _ FB1)).
      assert (Ex : map q_x lb = map q_x l) by (symmetry; apply (F2_map_eq _ _ _ q_x q_x (fun q b => q_x b = q_x q)); auto).
      destruct (musl_run p Hdx axes (pack lb) (length l) (sc_musl sc (length l)) g2 GO) as (ds & g3' & Ld & Dx & Dv & DB & _ & E' & L3 & N); try (unfold pack; cbn [p_x p_v p_B]; rewrite map_length; exact Lb).
      { intros _. unfold pack; cbn [p_B]. rewrite map_length; exact Lb. }
      { intros x Hx. unfold pack in Hx; cbn [p_x] in Hx. rewrite Ex in Hx. apply in_map_iff in Hx. destruct Hx as (q & <- & Hq). apply in_grid_covered; auto. }
      { apply (vs_musl sc V). }
      { exact Len. }
      rewrite Hg in E'. apply Ok_inj in E'. subst g3'.
      assert (Lp : length (combine (positions axes) g2) = length g2) by (rewrite combine_length, (F2_length _ _ _ _ _ NL); apply Nat.min_id).
      apply F2_nth; [rewrite Lp; auto|]. intros j (X, nd0) nd HX Hnd.
      assert (Lj : (j < length g2)%nat) by (rewrite <- Lp; apply nth_error_Some; congruence). assert (Hj : (Z.of_nat j < prodlen axes)%Z) by (rewrite <- Len; lia).
      assert (HX' : X = node_pos p axes j /\ nth_error g2 j = Some nd0).
      { destruct (nth_error g2 j) as [y|] eqn:Ey; [|apply nth_error_None in Ey; lia].
        assert (Ep : nth_error (positions axes) j = Some (node_pos p axes j)).
        { rewrite (positions_spec p) by auto. rewrite nth_error_map, (nth_error_nth' _ 0%nat) by (rewrite seq_length; lia). rewrite seq_nth by lia. reflexivity. }
        rewrite (nth_error_combine _ _ _ _ _ _ _ Ep Ey) in HX. split; congruence. }
      destruct HX' as (-> & E0). destruct (N j nd0 E0) as (nd' & En' & Nm & _ & _ & _ & Nv & Nz). assert (nd' = nd) by congruence. subst nd'.
      assert (M0 : nd_m nd0 = Mj p axes l j * particle_mass p).
      { destruct (proj2 (nodes_mass p Hdx axes GO l Cov Nt _ (vs_p2g sc V _) g1 E1 _ _ _ _ g2 (vs_euler sc V _) E2) j nd0 E0). auto. }
      split; cbn [fst snd].
      + exact Nm.
      + intros Hz. apply Nz. lra.
      + intros Hp k Hk. rewrite Nm in Hp |- *. rewrite (Nv Hp k Hk). transitivity (particle_mass p * Rsum (fun qq => weight p (node_pos p axes j) (q_x (fst qq)) * carried p (q_v (snd qq)) (q_B (snd qq)) (q_x (fst qq)) (node_pos p axes j) k) (combine l l1)); [|reflexivity].
        match goal with |- _ * (?S / _) = _ => assert (ES : S = Rsum (fun qq => weight p (node_pos p axes j) (q_x (fst qq)) * carried p (q_v (snd qq)) (q_B (snd qq)) (q_x (fst qq)) (node_pos p axes j) k) (combine l l1)) end; [|rewrite ES; field; split; lra].
        apply Rsum_nth2; [rewrite combine_length, L1, Nat.min_id; lia|]. intros i d (q, q1) Hd Hqq.
        assert (Li : (i < length l)%nat) by (rewrite <- Ld; apply nth_error_Some; congruence).
        destruct (nth_error l i) as [qa|] eqn:Eq; [|apply nth_error_None in Eq; lia]. destruct (nth_error l1 i) as [qb|] eqn:Eq1; [|apply nth_error_None in Eq1; lia].
        rewrite (nth_error_combine _ _ _ _ _ _ _ Eq Eq1) in Hqq. assert (qa = q /\ qb = q1) as (-> & ->) by (split; congruence).
        destruct (nth_error lb i) as [b|] eqn:Ebi; [|apply nth_error_None in Ebi; lia].
        pose proof (F2_at _ _ _ _ _ FB i q b Eq Ebi) as Xb. destruct (F2_at _ _ _ _ _ FB1 i b q1 Ebi Eq1) as (Vb & Bb). cbv beta in Xb.
        assert (Xd : d_x d = q_x q).
        { assert (Q : nth_error (map d_x ds) i = Some (d_x d)) by (now apply map_nth_error). rewrite Dx in Q. unfold pack in Q; cbn [p_x] in Q. rewrite nth_error_map, Ebi in Q. cbn in Q. congruence. }
        assert (Vd : d_v d = q_v q1).
        { assert (Q : nth_error (map d_v ds) i = Some (d_v d)) by (now apply map_nth_error). rewrite Dv in Q. unfold pack in Q; cbn [p_v] in Q. rewrite nth_error_map, Ebi in Q. cbn in Q. congruence. }
        assert (Bd : flip_ratio p < 0 -> d_B d = q_B q1).
        { intros Hf. assert (Q : nth_error (map d_B ds) i = Some (d_B d)) by (now apply map_nth_error). rewrite (DB Hf) in Q. unfold pack in Q; cbn [p_B] in Q. rewrite nth_error_map, Ebi in Q. cbn in Q. congruence. }
        cbn [fst snd]. pose proof (nth_error_In _ _ Eq) as Hq. rewrite Xd. rewrite <- (proj1 (node_pick p Hdx axes (q_x q) j GO (Cov q Hq) Hj)).
        rewrite Rmult_comm, <- Rsum_scal. apply Rsum_ext. intros it Hit.
        destruct (act_or p Hdx axes GO l Cov Nt q it Hq Hit) as [Ha|(Ha & W0 & _)]; rewrite Ha; [|rewrite W0; ring].
        destruct (ind_cases j it) as [(Ei & Ej)|(Ei & Ej)]; rewrite Ei; [|rewrite (proj2 (Z.eqb_neq _ _) Ej); ring].
        rewrite (proj2 (Z.eqb_eq _ _) Ej), (carried_eq p Hdx d it k Hk (q_B q1) Bd), Vd, Xd, (stencil_pos p Hdx axes (q_x q) it GO (Cov q Hq) Hit), Ej, Nat2Z.id. ring.
    - eapply F2_impl; [|exact (F2_and _ _ _ _ _ _ KF St)]. intros q q1 Hq ((r & Ki & F1) & (c & L & o & (items & Si & VG) & Pl & O1 & O2 & O3 & _)).
      pose proof (ki_g _ _ _ _ _ _ _ _ _ _ _ Ki) as Ga. fold g2 axes in Ga. pose proof (Cov q Hq) as Cq.
      assert (Pic : forall k, (k < dim)%nat -> vget (q_pic r) k = interpolated p (combine (positions axes) g2) (q_x q) (fun _ nd => vget (nd_v nd) k)).
      { intros k Hk. rewrite (ga_pic _ _ _ _ _ _ _ Ga k Hk). apply (gather_w p Hdx axes (q_x q) g2 (fun _ nd => vget (nd_v nd) k)); auto. }
      split.
      + intros Hc k Hk. rewrite (fi_x _ _ _ _ F1). unfold pos_hack, pbc_wrap. rewrite Hc, Hpbc, (ki_x _ _ _ _ _ _ _ _ _ _ _ Ki). rewrite vget_add, vget_lscale by auto. rewrite Pic by auto. reflexivity.
      + intros Hc. assert (D2 : (2 <= dim)%nat) by (destruct (gl_dim (G := G)) as [->| ->]; lia). exists (vadd (q_x q) (lscale (s_dt s1) (q_pic r))). split; [intros k Hk; rewrite vget_add, vget_lscale by auto; rewrite Pic by auto; reflexivity|].
        rewrite (fi_x _ _ _ _ F1), (ki_x _ _ _ _ _ _ _ _ _ _ _ Ki). unfold pos_hack, pbc_wrap. rewrite Hc, Hpbc, !nofQ_R. set (y := vadd _ _). numR.
        destruct (Rltb_spec (8 / 10) (vget y 0)); split; intros; try lra; try reflexivity. rewrite !vget_set by lia. cbn [Nat.eqb]. split; [lra|]. split; [lra|].
        intros k Hk. rewrite !vget_set by lia. destruct k as [|[|k]]; try lia. reflexivity.
      + intros k Hk. rewrite (fi_v _ _ _ _ F1), (newv p r k Hk), blend_eq, (ki_v _ _ _ _ _ _ _ _ _ _ _ Ki), Pic by auto.
        unfold blend. destruct (Rlt_dec (flip_ratio p) (-1)) as [|Hf]; [reflexivity|].
        assert (Fl : vget (q_flip r) k = interpolated p (combine (positions axes) g2) (q_x q) (fun X nd => vget (nd_v nd) k - projected p l X k)); [|now rewrite Fl].
        rewrite (ga_fl _ _ _ _ _ _ _ Ga ltac:(lra) k Hk). rewrite <- (gather_w p Hdx axes (q_x q) g2 (fun X nd => vget (nd_v nd) k - projected p l X k)) by auto.
        apply Rsum_ext. intros it Hit. destruct (Req_dec (it_w it) 0) as [->|W0]; [ring|]. f_equal.
        rewrite (stencil_pos p Hdx axes (q_x q) it GO Cq Hit). unfold nd_at. destruct (stencil_cov p Hdx axes (q_x q) GO Cq) as (_ & _ & S). pose proof (sl_idx _ _ _ _ S it Hit) as Hi. pose proof (sl_w _ _ _ _ S it Hit) as Hw.
        apply FL; auto; [apply nth_error_nth'; lia|]. pose proof (Mj_ge p Hdx axes GO l Cov q it Hq Hit). lra.
      + intros Hf i j Hi Hj. rewrite (fi_B _ _ _ _ F1), (ga_B _ _ _ _ _ _ _ Ga Hf i j Hi Hj).
        rewrite <- (gather_w p Hdx axes (q_x q) g2 (fun X nd => vget (nd_v nd) i * (vget X j - vget (q_x q) j))) by auto. apply Rsum_ext. intros; ring.
      + exists L, o. split; [|split; [|auto]].
        * intros i j Hi Hj. rewrite (VG i j Hi Hj). destruct (stencil_cov p Hdx axes (q_x q) GO Cq) as (_ & S2 & S). rewrite Si in S2. apply Ok_inj in S2. subst items.
          assert (L3 : Z.of_nat (length (s_nodes s1)) = prodlen axes).
          { pose proof (ru_rest _ _ _ _ _ _ _ _ Rn) as RR. destruct (use_musl p); [|rewrite (proj1 RR); exact Len].
            destruct RR as (g3 & rs3 & Hg & _ & Hn & _). rewrite Hn. fold g2 in Hg, Len. rewrite <- Len. f_equal. eapply musl_len; exact Hg. }
          rewrite (Rsum_ext (fun Xn : TV * Node R => vget (nd_v (snd Xn)) i * dweight p (fst Xn) (q_x q) j) (fun Xn : TV * Node R => dweight p (fst Xn) (q_x q) j * vget (nd_v (snd Xn)) i)) by (intros; ring).
          rewrite <- (gather_d p Hdx axes (q_x q) (s_nodes s1) (fun _ nd => vget (nd_v nd) i) j) by auto. apply Rsum_ext. intros it Hit.
          unfold node_v. rewrite rd_nd_at; [ring|]. rewrite L3. apply (sl_idx _ _ _ _ S it Hit).
        * cbv zeta. unfold start_hist, reset_dg in Pl. rewrite nofZ_R in Pl. exact Pl.
  Qed.
End StepLaw.
