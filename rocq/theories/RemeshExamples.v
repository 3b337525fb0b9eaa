(** * RemeshExamples: the later adaptive grids can miss nodes (C05 refuted). *)
From Coq Require Import Reals ZArith Lra Lia List Bool.
From Flocq Require Import Core.Raux.
From Verif Require Import Num NumR Tools Lin Types Remesh Objects Transfer Spec LinProofs ResProofs
  GridProofs StencilProofs RemeshProofs Examples.
Import ListNotations.
Local Open Scope R_scope.

Definition ep : Par R := ex_std (G := Geo2 R) Deg2 1.
Definition pt (a b : R) : @TV R (Geo2 R) := mkV2 a b.

Definition ax5 : Axis R := mkAxis [-2; -2 + 1; -2 + 1 + 1; -2 + 1 + 1 + 1; -2 + 1 + 1 + 1 + 1] (-2).
Lemma mk5 : forall a b : R, a = -2 -> b = 3 -> mk_axis 10 a b 1 = Ok ax5.
Proof.
  intros a b -> ->. unfold mk_axis, arange. cbn [arange_loop]. numR.
  do 6 rlt_eval. reflexivity.
Qed.
Lemma init_axis0 : forall k, (k < 2)%nat ->
  remeshInit_axis (G := Geo2 R) 10 ep 2 [pt 0 0] k = Ok (ax5, mkMeshAx 0 0 (0 - 1 * 2) (0 + 1 * 2)).
Proof.
  intros k Hk. unfold remeshInit_axis.
  replace (map (fun v => vget v k) [pt 0 0]) with [0] by (destruct k as [|[|k]]; [reflexivity|reflexivity|lia]).
  cbn [max_elem min_elem bind fold_left]. unfold ref_adjust.
  change (vget (grid_ref ep) 0) with 20000000000. rewrite !nofZ_R. numR.
  replace (Rltb 20000000000 10000000000) with false by (symmetry; apply Rltb_false; lra).
  change (dx ep) with 1. rewrite mk5 by lra. reflexivity.
Qed.
Lemma init_ex : remeshFixedInit (G := Geo2 R) 10 ep 2 [pt 0 0]
  = Ok [(ax5, mkMeshAx 0 0 (0 - 1 * 2) (0 + 1 * 2)); (ax5, mkMeshAx 0 0 (0 - 1 * 2) (0 + 1 * 2))].
Proof. unfold remeshFixedInit. cbn [dim Geo2 seq mapM]. rewrite !init_axis0 by lia. reflexivity. Qed.

Lemma shift0 : forall d, 0 <= d <= 1 + 1/1000000000 -> shift_factor (G := Geo2 R) ep d = Ok 0%Z.
Proof.
  intros d Hd. unfold shift_factor. rewrite cmax_R, nofZ_R. numR. change (dx ep) with 1.
  replace (Zfloor (Rmax 0 (d / 1 - 1 / 100000000 * 1))) with 0%Z; [apply to_uint_IZR; lia|].
  symmetry. apply Zfloor_imp. simpl. split; [apply Rmax_l|]. apply Rmax_lub_lt; lra.
Qed.
Lemma cont_axis : forall xs k x, (k < 2)%nat -> map (fun v => vget v k) xs = [x] -> Rabs x <= 1 + 1/1000000000 ->
  remeshCont_axis (G := Geo2 R) 10 ep xs (mkMeshAx 0 0 (0 - 1 * 2) (0 + 1 * 2)) k = Ok ax5.
Proof.
  intros xs k x Hk E H. unfold remeshCont_axis. rewrite E. cbn [max_elem min_elem bind fold_left].
  unfold cont_high, cont_low. cbn [ma_min ma_max ma_low ma_high]. numR.
  assert (-(1 + 1/1000000000) <= x <= 1 + 1/1000000000) by (revert H; unfold Rabs; destruct (Rcase_abs x); lra).
  destruct (Rltb_spec x 0); destruct (Rltb_spec 0 x); try lra; rewrite !shift0 by lra; cbn [bind]; rewrite nofZ_R;
    change (dx ep) with 1; apply mk5; lra.
Qed.
Lemma cont_ex : forall x y, Rabs x <= 1 + 1/1000000000 -> Rabs y <= 1 + 1/1000000000 ->
  remeshFixedCont (G := Geo2 R) 10 ep [pt x y] [mkMeshAx 0 0 (0 - 1 * 2) (0 + 1 * 2); mkMeshAx 0 0 (0 - 1 * 2) (0 + 1 * 2)]
  = Ok [ax5; ax5].
Proof.
  intros. unfold remeshFixedCont. cbn [dim Geo2 seq combine mapM fst snd].
  rewrite (cont_axis _ _ x), (cont_axis _ _ y) by (auto; lia). reflexivity.
Qed.

Lemma floor_is : forall (x : R) z, IZR z <= x < IZR z + 1 -> Zfloor x = z.
Proof. intros. apply Zfloor_imp. rewrite plus_IZR. auto. Qed.

(** A particle that has moved right by exactly one cell: its stencil's last node is missing. *)
Lemma high_side_UB : stencil (G := Geo2 R) base_p2g ep [ax5; ax5] (pt 1 0) = UB /\
  stencil (G := Geo2 R) base_g2p ep [ax5; ax5] (pt 1 0) = UB.
Proof.
  assert (B : forall (x : R) z, IZR z <= x + 2 < IZR z + 1 -> Zfloor ((x - -2) * one_over_dx ep) = z).
  { intros. apply floor_is. unfold one_over_dx. rewrite nofZ_R. change (dx ep) with 1. numR. lra. }
  unfold stencil, base_p2g, base_g2p. cbn [vget Geo2 pt v2_0 v2_1]. change (ax_c ax5) with (-2). numR.
  rewrite (B 1 3%Z), (B 0 2%Z), nofZ_R by (simpl; lra). rewrite <- !minus_IZR.
  rewrite !to_uint_IZR by lia. unfold to_int. simpl ntrunc. rewrite !Ztrunc_IZR. simpl. split; reflexivity.
Qed.
(** A particle that has moved left by a hair more than one cell: the base index is negative. *)
Lemma low_side_UB : stencil (G := Geo2 R) base_g2p ep [ax5; ax5] (pt (-1 - 1/1000000000) 0) = UB.
Proof.
  unfold stencil, base_g2p. cbn [vget Geo2 pt v2_0 v2_1]. change (ax_c ax5) with (-2). numR.
  rewrite (floor_is _ 0%Z).
  - rewrite nofZ_R, <- minus_IZR. unfold to_uint. simpl ntrunc. rewrite Ztrunc_IZR. reflexivity.
  - unfold one_over_dx. rewrite nofZ_R. change (dx ep) with 1. numR. lra.
Qed.

(** The periodic grid starts one cell below y = 0: a particle at y = -1/2 has no lower neighbour. *)
Lemma below_zero : exists af p axes x, remeshFixed (G := Geo2 R) af p 4 = Ok axes /\
  vget x 1 = -1/2 /\ stencil base_g2p p axes x = UB.
Proof.
  destruct (fixed_terminates (G := Geo2 R) ep) as [n0 T]; try (simpl; lra).
  destruct (T n0 (le_n _)) as [axes E]. exists n0, ep, axes, (pt 0 (-1/2)). split; auto. split; [reflexivity|].
  pose proof E as E0. unfold remeshFixed in E. cbn [dim Geo2 seq mapM] in E. invb.
  unfold remeshFixed_axis in E3. rewrite ?nofZ_R in *. numR.
  apply mk_axis_spec in E3; [|simpl; lra]. destruct E3 as (C & _).
  unfold stencil. destruct (base_g2p ep x (vget (pt 0 (-1 / 2)) 0)) as [b| |] eqn:Bx; cbn [bind].
  - replace (base_g2p ep x1 (vget (pt 0 (-1/2)) 1)) with (@UB Z); [reflexivity|].
    unfold base_g2p. cbn [vget Geo2 pt v2_0 v2_1]. rewrite C. numR. rewrite (floor_is _ 0%Z).
    + rewrite nofZ_R, <- minus_IZR. unfold to_uint. simpl ntrunc. rewrite Ztrunc_IZR. reflexivity.
    + unfold one_over_dx. rewrite nofZ_R. change (dx ep) with 1. numR. lra.
  - reflexivity.
  - exfalso. unfold base_g2p, to_uint in Bx. destruct (ntrunc _) as [z|]; [destruct (uint_ok z)|]; discriminate.
Qed.
