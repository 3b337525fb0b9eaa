(** * Properties C01-C07 and C33: interpolation kernels and the background grid. *)
From Coq Require Import Reals ZArith Lra Lia List Bool.
From Flocq Require Import Core.Raux.
From Coquelicot Require Import Coquelicot.
From Verif Require Import Num NumR Tools Lin Types Remesh Objects Transfer Save Spec LinProofs ResProofs
  KernelProofs GridProofs StencilProofs RemeshProofs IndexProofs GradProofs Examples RemeshExamples.
Import ListNotations.
Local Open Scope R_scope.

(** A concrete grid (5x5 nodes, spacing 1, corner (-2,-2)) and a particle in it. *)
Lemma ax5_lattice : lattice 1 ax5.
Proof. exists 5%nat. split; [lia|]. unfold ax5; cbn [ax_co ax_c map seq INR]. repeat (f_equal; try lra). Qed.
Lemma ex_grid_ok : GridOk ep [ax5; ax5].
Proof. split; [reflexivity|repeat constructor; apply ax5_lattice|simpl; lia]. Qed.
Lemma ex_in_grid : forall a b, -1 <= a < 1 -> -1 <= b < 1 -> in_grid ep [ax5; ax5] (pt a b).
Proof.
  intros a b Ha Hb k c Hc. destruct k as [|[|[|k]]]; simpl in Hc; try discriminate; injection Hc as <-; simpl; lra.
Qed.

(** ** C01 *)
(** Kernel level: the four weights around any real position (in cells) sum to one. *)
Theorem C01_kernel_partition : forall (s : Spline) (u : R),
  (forall v : R, 0 <= N s v) /\
  let b := IZR (Zfloor u - 1) in
  N s (u - b) + N s (u - (b + 1)) + N s (u - (b + 2)) + N s (u - (b + 3)) = 1.
Proof.
  intros s u. split; [apply N_nonneg|]. rewrite minus_IZR. pose proof (Zfloor_bounds u).
  pose proof (N_pou s (u - IZR (Zfloor u))) as E. cbv zeta.
  replace (u - (IZR (Zfloor u) - 1)) with (u - IZR (Zfloor u) + 1) by ring.
  replace (u - (IZR (Zfloor u) - 1 + 1)) with (u - IZR (Zfloor u)) by ring.
  replace (u - (IZR (Zfloor u) - 1 + 2)) with (u - IZR (Zfloor u) - 1) by ring.
  replace (u - (IZR (Zfloor u) - 1 + 3)) with (u - IZR (Zfloor u) - 2) by ring.
  apply E; lra.
Qed.
(** Transfer level: both transfers visit the same 4^dim distinct nodes; the weights are
    non-negative and sum to one. *)
Theorem C01_partition_of_unity : forall (G : Geo R), two_or_three G ->
  forall (p : Par R) (axes : list (Axis R)) (x : TV), 0 < dx p -> GridOk p axes -> in_grid p axes x ->
  exists items : list (Item R),
    stencil base_p2g p axes x = Ok items /\ stencil base_g2p p axes x = Ok items /\
    length items = Nat.pow 4 dim /\ NoDup (map it_idx items) /\
    (forall it, In it items -> 0 <= it_w it /\ it_w it = weight p (it_x it) x) /\
    Rsum it_w items = 1.
Proof.
  intros G HG p axes x Hdx GO IG. pose proof (geolaws G HG). apply in_grid_covered in IG; auto.
  destruct (stencil_cov p Hdx axes x GO IG) as (A & B & S). exists (items_of p axes x).
  split; auto. split; auto. split; [apply S|]. split; [apply S|]. split; [|apply S].
  intros it Hi. split; [apply S; auto|].
  eapply item_weight; eauto.
Qed.
Example C01_example : exists items, stencil base_p2g ep [ax5; ax5] (pt (1/4) (-1/3)) = Ok items /\ Rsum it_w items = 1.
Proof.
  destruct (C01_partition_of_unity (Geo2 R) (or_introl eq_refl) ep [ax5; ax5] (pt (1/4) (-1/3)))
    as (items & A & _ & _ & _ & _ & B); [simpl; lra|apply ex_grid_ok|apply ex_in_grid; lra|eauto].
Qed.
Print Assumptions C01_kernel_partition.
Print Assumptions C01_partition_of_unity.

(** ** C02 *)
(** Wherever the kernel has a derivative, dNdu is that derivative; quadratic and cubic kernels
    have one everywhere, the linear one except at its three kinks. *)
Theorem C02_kernel_derivative : forall (s : Spline) (u : R),
  (forall d, is_derive (N s : R -> R) u d -> d = dNdu s u) /\
  ((s = Deg1 -> u <> 0 /\ Rabs u <> 1) -> is_derive (N s : R -> R) u (dNdu s u)).
Proof. intros s u. split; [apply N_derive_exists|apply N_derive]. Qed.
(** The gradient weights used by the transfers are the partial derivatives of the weight with
    respect to the particle position; they sum to zero and differentiate every linear field
    exactly. *)
Theorem C02_gradient_weights : forall (G : Geo R), two_or_three G ->
  forall (p : Par R) (axes : list (Axis R)) (x : TV), 0 < dx p -> GridOk p axes -> in_grid p axes x ->
  (spline p = Deg1 -> off_grid_lines p axes x) ->
  forall items, stencil base_g2p p axes x = Ok items ->
  (forall it k, In it items -> (k < dim)%nat ->
     is_derive (fun t => weight p (it_x it) (vset x k t)) (vget x k) (vget (it_g it) k)) /\
  (forall k, (k < dim)%nat -> Rsum (fun it => vget (it_g it) k) items = 0) /\
  (forall (c : R) (a : TV) k, (k < dim)%nat ->
     Rsum (fun it => (c + vdot a (it_x it)) * vget (it_g it) k) items = vget a k).
Proof.
  intros G HG p axes x Hdx GO IG Hoff items E. pose proof (geolaws G HG). apply in_grid_covered in IG; auto.
  destruct (stencil_cov p Hdx axes x GO IG) as (_ & B & S). rewrite E in B. injection B as ->.
  assert (Hoff' : spline p = Deg1 -> off_lines p axes x) by (intros h; apply off_lines_iff; auto).
  split; [intros it k Hi Hk; eapply item_grad; eauto|]. split; [intros k Hk; apply (sl_g _ _ _ _ S); auto|].
  intros c a k Hk. eapply linear_grad; eauto.
Qed.
Theorem C02_linear_kernel_at_node : dNdu Deg1 (0 + 1 : R) + dNdu Deg1 (0 : R) + dNdu Deg1 (0 - 1 : R) + dNdu Deg1 (0 - 2 : R) = 1.
Proof. kern. Qed.
Example C02_example : exists items, stencil base_g2p ep [ax5; ax5] (pt (1/4) (-1/3)) = Ok items /\
  Rsum (fun it => (7 + vdot (pt 2 3) (it_x it)) * vget (it_g it) 1) items = 3.
Proof.
  assert (I : in_grid ep [ax5; ax5] (pt (1/4) (-1/3))) by (apply ex_in_grid; lra).
  destruct (C01_partition_of_unity (Geo2 R) (or_introl eq_refl) ep [ax5; ax5] (pt (1/4) (-1/3)))
    as (items & _ & A & _); [simpl; lra|apply ex_grid_ok|auto|].
  exists items. split; auto.
  apply (C02_gradient_weights (Geo2 R) (or_introl eq_refl) ep [ax5; ax5] (pt (1/4) (-1/3))); auto; try (simpl; lra || lia).
  - apply ex_grid_ok.
  - intros h. discriminate h.
Qed.
Print Assumptions C02_kernel_derivative.
Print Assumptions C02_gradient_weights.
Print Assumptions C02_linear_kernel_at_node.

(** ** C03 *)
Theorem C03_inertia : forall (G : Geo R), two_or_three G ->
  forall (p : Par R) (axes : list (Axis R)) (x : TV), 0 < dx p -> GridOk p axes -> in_grid p axes x ->
  forall items, stencil base_g2p p axes x = Ok items ->
  (forall k, (k < dim)%nat -> Rsum (fun it => it_w it * (vget (it_x it) k - vget x k)) items = 0) /\
  (spline p <> Deg1 -> forall k l, (k < dim)%nat -> (l < dim)%nat ->
     apicDinverse p * Rsum (fun it => it_w it * (vget (it_x it) k - vget x k) * (vget (it_x it) l - vget x l)) items
     = if Nat.eqb k l then 1 else 0).
Proof.
  intros G HG p axes x Hdx GO IG items E. pose proof (geolaws G HG). apply in_grid_covered in IG; auto.
  destruct (stencil_cov p Hdx axes x GO IG) as (_ & B & S). rewrite E in B. injection B as ->.
  split; [intros k Hk; apply (sl_x _ _ _ _ S); auto|].
  intros Hs k l Hk Hl. rewrite (sl_xx _ _ _ _ S Hs k l Hk Hl). destruct (Nat.eqb k l); [|lra].
  apply Rinv_r. unfold apicDinverse. destruct (spline p); try congruence; rewrite nofZ_R; numR;
    apply Rgt_not_eq, Rdiv_lt_0_compat; nra.
Qed.
(** The documented constants. *)
Theorem C03_constants : forall (G : Geo R) (p : Par R),
  apicDinverse p = match spline p with Deg1 => 0 | Deg2 => 4 / (dx p * dx p) | Deg3 => 3 / (dx p * dx p) end.
Proof. intros. unfold apicDinverse. destruct (spline p); rewrite nofZ_R; reflexivity. Qed.
(** For linear splines the second moment depends on the position inside the cell, so no constant
    works: no [c] with c * moment = 1 at every position. *)
Theorem C03_linear_has_no_constant : ~ exists c : R, forall f, 0 <= f < 1 ->
  c * (N Deg1 (f + 1) * (f + 1)^2 + N Deg1 f * f^2 + N Deg1 (f - 1) * (f - 1)^2 + N Deg1 (f - 2) * (f - 2)^2) = 1.
Proof.
  intros [c H]. specialize (H 0). rewrite N_second_moment in H by lra. unfold kernel_second_moment in H. lra.
Qed.
Example C03_example : apicDinverse ep = 4.
Proof. rewrite C03_constants. simpl. lra. Qed.
Print Assumptions C03_inertia.
Print Assumptions C03_constants.
Print Assumptions C03_linear_has_no_constant.

(** ** C04 *)
(** The stencil of [x] lies in the nodal arrays that resizeGrid allocates for [axes]. *)
Definition stencil_in_arrays {G : Geo R} (p : Par R) (axes : list (Axis R)) (x : TV) : Prop :=
  exists items, stencil base_p2g p axes x = Ok items /\ stencil base_g2p p axes x = Ok items /\
    length items = Nat.pow 4 dim /\
    forall it, In it items -> (0 <= it_idx it < Z.of_nat (length (resizeGrid axes)))%Z.
Lemma covered_in_arrays : forall (G : Geo R) (GL : GeoLaws G) p axes x, 0 < dx p -> GridOk p axes -> Covered p axes x ->
  stencil_in_arrays p axes x.
Proof.
  intros G GL p axes x Hdx GO C. destruct (stencil_cov p Hdx axes x GO C) as (A & B & S).
  exists (items_of p axes x). split; auto. split; auto. split; [apply S|]. intros it Hi.
  erewrite resize_length by eauto. apply S; auto.
Qed.
Theorem C04_initial_grid_covers : forall (G : Geo R), two_or_three G ->
  forall (af : nat) (p : Par R) (xs : list TV) am, 0 < dx p ->
  remeshFixedInit af p 2 xs = Ok am -> (prodlen (map fst am) <= 4294967295)%Z ->
  forall x, In x xs -> stencil_in_arrays p (map fst am) x.
Proof.
  intros G HG af p xs am Hdx H F x Hx. pose proof (geolaws G HG).
  apply covered_in_arrays; auto; [eapply init_grid_ok|eapply init_covers]; eauto.
Qed.
(** The construction loop ends: with enough loop iterations allowed, the grid is built. *)
Theorem C04_initial_grid_exists : forall (G : Geo R), two_or_three G ->
  forall (p : Par R) (xs : list TV), 0 < dx p -> xs <> [] ->
  exists n0, forall af, (n0 <= af)%nat -> exists am, remeshFixedInit af p 2 xs = Ok am.
Proof. intros G HG p xs Hdx Hx. pose proof (geolaws G HG). apply init_terminates; auto. Qed.
Example C04_example : remeshFixedInit 10 ep 2 [pt 0 0] =
  Ok [(ax5, mkMeshAx 0 0 (0 - 1 * 2) (0 + 1 * 2)); (ax5, mkMeshAx 0 0 (0 - 1 * 2) (0 + 1 * 2))] /\
  (prodlen [ax5; ax5] <= 4294967295)%Z /\ stencil_in_arrays ep [ax5; ax5] (pt 0 0).
Proof.
  split; [apply init_ex|]. split; [simpl; lia|].
  apply (C04_initial_grid_covers (Geo2 R) (or_introl eq_refl) 10 ep [pt 0 0] _ ltac:(simpl; lra) init_ex); [simpl; lia|now left].
Qed.
Print Assumptions C04_initial_grid_covers.
Print Assumptions C04_initial_grid_exists.

(** ** C05 *)
(** Full statement: for every initial cloud and every later cloud the re-created grid covers. *)
Definition C05_statement : Prop := forall (G : Geo R), two_or_three G ->
  forall af p xs0 am xs axes, 0 < dx p ->
  remeshFixedInit af p 2 xs0 = Ok am -> remeshFixedCont af p xs (map snd am) = Ok axes ->
  (prodlen axes <= 4294967295)%Z -> forall x, In x xs -> stencil_in_arrays p axes x.
(** It fails: a particle that has moved right by exactly one cell (dx = 1, from 0 to 1) needs a
    node the grid does not have, in both transfers; a particle that has moved left by a hair more
    than one cell gets the base index -1. *)
Theorem C05_refuted : ~ C05_statement /\
  (exists af p x0 x1 am axes, 0 < dx p /\
    remeshFixedInit (G := Geo2 R) af p 2 [x0] = Ok am /\ remeshFixedCont af p [x1] (map snd am) = Ok axes /\
    stencil base_p2g p axes x1 = UB /\ stencil base_g2p p axes x1 = UB) /\
  (exists af p x0 x1 am axes, 0 < dx p /\
    remeshFixedInit (G := Geo2 R) af p 2 [x0] = Ok am /\ remeshFixedCont af p [x1] (map snd am) = Ok axes /\
    vget x1 0 < vget x0 0 /\ stencil base_g2p p axes x1 = UB).
Proof.
  assert (E1 : remeshFixedCont 10 ep [pt 1 0] (map snd [(ax5, mkMeshAx 0 0 (0 - 1 * 2) (0 + 1 * 2)); (ax5, mkMeshAx 0 0 (0 - 1 * 2) (0 + 1 * 2))]) = Ok [ax5; ax5]).
  { apply cont_ex; rewrite Rabs_pos_eq; lra. }
  split; [|split].
  - intros H. specialize (H (Geo2 R) (or_introl eq_refl) 10%nat ep [pt 0 0] _ [pt 1 0] [ax5; ax5] ltac:(simpl; lra) init_ex E1).
    destruct (H ltac:(simpl; lia) (pt 1 0) (or_introl eq_refl)) as (it & A & _).
    rewrite (proj1 high_side_UB) in A. discriminate.
  - exists 10%nat, ep, (pt 0 0), (pt 1 0). eexists. exists [ax5; ax5]. split; [simpl; lra|].
    split; [apply init_ex|]. split; [apply E1|]. apply high_side_UB.
  - exists 10%nat, ep, (pt 0 0), (pt (-1 - 1/1000000000) 0). eexists. exists [ax5; ax5]. split; [simpl; lra|].
    split; [apply init_ex|]. split; [|split; [simpl; lra|apply low_side_UB]].
    apply cont_ex; [rewrite Rabs_left; lra|rewrite Rabs_pos_eq; lra].
Qed.
(** What holds: coverage for every later cloud in which no particle's expansion beyond the initial
    extent is within 1e-8*dx cells above a whole number of cells.  (Missing: the complement.) *)
Theorem C05_later_grids_cover_partial : forall (G : Geo R), two_or_three G ->
  forall af p xs0 am xs axes, 0 < dx p ->
  remeshFixedInit af p 2 xs0 = Ok am -> remeshFixedCont af p xs (map snd am) = Ok axes ->
  (prodlen axes <= 4294967295)%Z ->
  (forall k m x (n : Z), nth_error (map snd am) k = Some m -> In x xs -> (1 <= n)%Z ->
     ~ (IZR n <= (ma_min m - vget x k) / dx p < IZR n + 1/100000000 * dx p) /\
     ~ (IZR n <= (vget x k - ma_max m) / dx p < IZR n + 1/100000000 * dx p)) ->
  forall x, In x xs -> stencil_in_arrays p axes x.
Proof.
  intros G HG af p xs0 am xs axes Hdx Hi Hc F S x Hx. pose proof (geolaws G HG).
  pose proof (init_mesh_ok p Hdx af xs0 am Hi) as M.
  apply covered_in_arrays; auto; [eapply cont_grid_ok; eauto|eapply cont_covers; eauto].
  intros k m y Hm Hy. split; intros _ n Hn; apply (S k m y n Hm Hy Hn).
Qed.
Example C05_example : remeshFixedCont 10 ep [pt (1/2) (-1/2)]
    (map snd [(ax5, mkMeshAx 0 0 (0 - 1 * 2) (0 + 1 * 2)); (ax5, mkMeshAx 0 0 (0 - 1 * 2) (0 + 1 * 2))]) = Ok [ax5; ax5] /\
  stencil_in_arrays ep [ax5; ax5] (pt (1/2) (-1/2)).
Proof.
  assert (E : remeshFixedCont 10 ep [pt (1/2) (-1/2)]
    (map snd [(ax5, mkMeshAx 0 0 (0 - 1 * 2) (0 + 1 * 2)); (ax5, mkMeshAx 0 0 (0 - 1 * 2) (0 + 1 * 2))]) = Ok [ax5; ax5])
    by (apply cont_ex; [rewrite Rabs_pos_eq; lra|rewrite Rabs_left; lra]).
  split; auto.
  apply (C05_later_grids_cover_partial (Geo2 R) (or_introl eq_refl) 10 ep [pt 0 0] _ [pt (1/2) (-1/2)] _ ltac:(simpl; lra) init_ex E);
    [simpl; lia| |now left].
  intros k m x n Hm [<-|[]] Hn. apply IZR_le in Hn.
  destruct k as [|[|[|k]]]; simpl in Hm; try discriminate; injection Hm as <-; simpl; split; lra.
Qed.
Print Assumptions C05_refuted.
Print Assumptions C05_later_grids_cover_partial.

(** ** C06 *)
Theorem C06_grid_never_drifts : forall (G : Geo R), two_or_three G ->
  forall af p xs0 am xs axes k a a0, 0 < dx p ->
  remeshFixedInit af p 2 xs0 = Ok am -> remeshFixedCont af p xs (map snd am) = Ok axes ->
  nth_error (map fst am) k = Some a0 -> nth_error axes k = Some a ->
  forall i y, nth_error (ax_co a) i = Some y ->
  (exists n : Z, y = ax_c a0 + IZR n * dx p) /\
  (forall y', nth_error (ax_co a) (S i) = Some y' -> y' = y + dx p).
Proof.
  intros G HG af p xs0 am xs axes k a a0 Hdx Hi Hc Ha0 Ha i y Hy. pose proof (geolaws G HG).
  pose proof (init_mesh_ok p Hdx af xs0 am Hi) as M.
  rewrite nth_error_map in Ha0. destruct (nth_error am k) as [[a' m]|] eqn:E; simpl in Ha0; [|discriminate]. injection Ha0 as ->.
  assert (Hm : nth_error (map snd am) k = Some m) by (rewrite nth_error_map, E; reflexivity).
  destruct (cont_lattice p Hdx af xs0 xs _ axes k a m M Hc Ha Hm) as (L & z & Z).
  unfold remeshFixedInit in Hi. eapply mapM_seq_nth in Hi; eauto. apply remeshInit_axis_spec in Hi; auto.
  destruct Hi as (_ & _ & C0 & _).
  rewrite (lattice_co _ _ L) in Hy. rewrite nth_error_seq_map in Hy.
  destruct (Nat.ltb_spec i (lat_n a)); [|discriminate]. rewrite Nat.add_0_l in Hy. injection Hy as <-. split.
  - exists (z + Z.of_nat i)%Z. rewrite plus_IZR, <- INR_IZR_INZ, Z, C0. ring.
  - intros y' Hy'. rewrite (lattice_co _ _ L), nth_error_seq_map in Hy'.
    destruct (Nat.ltb_spec (S i) (lat_n a)); [|discriminate]. rewrite Nat.add_0_l, S_INR in Hy'. injection Hy' as <-. ring.
Qed.
Example C06_example : remeshFixedCont 10 ep [pt 1 0]
    (map snd [(ax5, mkMeshAx 0 0 (0 - 1 * 2) (0 + 1 * 2)); (ax5, mkMeshAx 0 0 (0 - 1 * 2) (0 + 1 * 2))]) = Ok [ax5; ax5].
Proof. apply cont_ex; rewrite Rabs_pos_eq; lra. Qed.
Print Assumptions C06_grid_never_drifts.

(** ** C07 *)
(** [ind2]/[ind3] are bijections between in-range coordinates and 0 .. (node count)-1. *)
Theorem C07_index_bijection_2D : forall nx ny : Z, (0 < nx)%Z -> (0 < ny)%Z -> (nx * ny <= 4294967295)%Z ->
  (forall i j, (0 <= i < nx)%Z -> (0 <= j < ny)%Z -> (0 <= ind2 ny i j < nx * ny)%Z) /\
  (forall n, (0 <= n < nx * ny)%Z -> exists! ij : Z * Z,
     (0 <= fst ij < nx)%Z /\ (0 <= snd ij < ny)%Z /\ ind2 ny (fst ij) (snd ij) = n).
Proof. exact index_bij2. Qed.
Theorem C07_index_bijection_3D : forall nx ny nz : Z, (0 < nx)%Z -> (0 < ny)%Z -> (0 < nz)%Z -> (nx * ny * nz <= 4294967295)%Z ->
  (forall i j k, (0 <= i < nx)%Z -> (0 <= j < ny)%Z -> (0 <= k < nz)%Z -> (0 <= ind3 ny nz i j k < nx * ny * nz)%Z) /\
  (forall n, (0 <= n < nx * ny * nz)%Z -> exists! ijk : Z * Z * Z,
     (0 <= fst (fst ijk) < nx)%Z /\ (0 <= snd (fst ijk) < ny)%Z /\ (0 <= snd ijk < nz)%Z /\
     ind3 ny nz (fst (fst ijk)) (snd (fst ijk)) (snd ijk) = n).
Proof. exact index_bij3. Qed.
(** The grid loop visits node 0, 1, 2, ... each exactly once; row n of the saved grid file holds
    the position of node n; the nodal arrays have exactly that many entries; and a stencil entry
    with index n has the position of node n. *)
Theorem C07_saved_rows : forall (G : Geo R), two_or_three G ->
  forall (p : Par R) (axes : list (Axis R)), 0 < dx p -> GridOk p axes ->
  exists nl, node_list axes = Ok nl /\
    map fst nl = map Z.of_nat (seq 0 (length nl)) /\
    grid_x_save axes = map snd nl /\
    length (resizeGrid axes) = length nl /\
    (forall x items it, in_grid p axes x -> stencil base_g2p p axes x = Ok items -> In it items ->
       nth_error nl (Z.to_nat (it_idx it)) = Some (it_idx it, it_x it)).
Proof.
  intros G HG p axes Hdx GO. pose proof (geolaws G HG). eexists. split; [apply node_list_spec; eauto|].
  rewrite !map_map, map_length, seq_length. cbn [fst snd].
  split; [reflexivity|]. split; [apply grid_x_save_spec; auto|].
  pose proof (prodlen_pos p axes GO) as PP.
  split; [apply Nat2Z.inj; erewrite resize_length by eauto; lia|].
  intros x items it IG E Hi. apply in_grid_covered in IG; auto. destruct (stencil_cov p Hdx axes x GO IG) as (_ & B & S).
  rewrite E in B. injection B as ->. pose proof (sl_idx _ _ _ _ S it Hi). rewrite nth_error_seq_map.
  destruct (Nat.ltb_spec (Z.to_nat (it_idx it)) (Z.to_nat (prodlen axes))); [|lia]. simpl. f_equal. f_equal; [lia|].
  symmetry. eapply stencil_pos; eauto.
Qed.
Example C07_example : ind2 5 3 4 = 19%Z /\ ind3 5 6 3 4 2 = 116%Z /\ GridOk ep [ax5; ax5].
Proof. split; [reflexivity|]. split; [reflexivity|apply ex_grid_ok]. Qed.
Print Assumptions C07_index_bijection_2D.
Print Assumptions C07_index_bijection_3D.
Print Assumptions C07_saved_rows.

(** ** C33 *)
Theorem C33_periodic_grid_covers : forall (G : Geo R), two_or_three G ->
  forall af p axes x, 0 < dx p -> remeshFixed af p 4 = Ok axes -> (prodlen axes <= 4294967295)%Z ->
  - 4 * dx p <= vget x 0 < Lx p + 4 * dx p ->
  0 <= vget x 1 < Ly p + 4 * dx p ->
  (dim = 3%nat -> - 4 * dx p <= vget x 2 < Lz p + 4 * dx p) ->
  stencil_in_arrays p axes x.
Proof.
  intros G HG af p axes x Hdx H F X Y Z. pose proof (geolaws G HG).
  apply covered_in_arrays; auto; [eapply fixed_grid_ok|eapply fixed_covers]; eauto.
Qed.
(** Below y = 0 the guarantee stops: there grid-to-particle converts -1 to unsigned. *)
Theorem C33_below_zero_undefined : exists af p axes x, remeshFixed (G := Geo2 R) af p 4 = Ok axes /\
  vget x 1 = -1/2 /\ stencil base_g2p p axes x = UB.
Proof. exact below_zero. Qed.
Theorem C33_periodic_grid_exists : forall (G : Geo R), two_or_three G ->
  forall (p : Par R), 0 < dx p -> 0 <= Lx p -> 0 <= Ly p -> 0 <= Lz p ->
  exists n0, forall af, (n0 <= af)%nat -> exists axes, remeshFixed af p 4 = Ok axes.
Proof. intros G HG p Hdx Hx Hy Hz. pose proof (geolaws G HG). apply fixed_terminates; auto. Qed.
Print Assumptions C33_periodic_grid_covers.
Print Assumptions C33_below_zero_undefined.
Print Assumptions C33_periodic_grid_exists.
