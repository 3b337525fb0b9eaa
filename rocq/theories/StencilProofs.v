(** * StencilProofs: the 4x4(x4) stencils and the moment identities (C01-C03). *)
From Coq Require Import Reals ZArith Lra Lia List Bool Permutation.
From Flocq Require Import Core.Raux.
From Verif Require Import Num NumR Tools Lin Types Remesh Objects Transfer LinProofs ResProofs
  KernelProofs GridProofs Spec.
Import ListNotations.
Local Open Scope R_scope.

Lemma N_zero_dN_zero : forall s (u : R), N s u = 0 -> dNdu s u = 0.
Proof.
  intros s u H. apply N_support.
  destruct s; revert H; kunf.
  - rcase; intros; lra.
  - destruct (Rltb_spec (Rabs u) (1/2)).
    + pose proof (Rabs_pos u). nra.
    + destruct (Rltb_spec (Rabs u) (3/2)); [nra|lra].
  - pose proof (Rabs_pos u). destruct (Rltb_spec (Rabs u) 1); [nra|].
    destruct (Rltb_spec (Rabs u) 2); [|lra]. intros. exfalso.
    assert (0 < (2 - Rabs u) * (2 - Rabs u) * (2 - Rabs u)) by (repeat apply Rmult_lt_0_compat; lra).
    nra.
Qed.

(** Identities satisfied by the four (node, weight, derivative) entries of one axis. *)
Record AxLaws (g0 : Prop) (x m2 : R) (l : list (AxItem R)) : Prop := {
  al_w : forall i, In i l -> 0 <= ai_w i;
  al_1 : Rsum (fun i => ai_w i) l = 1;
  al_x : Rsum (fun i => ai_w i * (ai_x i - x)) l = 0;
  al_xx : Rsum (fun i => ai_w i * ((ai_x i - x) * (ai_x i - x))) l = m2;
  al_g : g0 -> Rsum (fun i => ai_g i) l = 0;
  al_gx : g0 -> Rsum (fun i => ai_g i * (ai_x i - x)) l = 1;
  al_0 : forall i, In i l -> ai_w i = 0 -> ai_g i = 0
}.

Section Ax.
  Context {G : Geo R}.
  Variable p : Par R.
  Hypothesis Hdx : 0 < dx p.

  Definition frac_of (a : Axis R) (x : R) : R := (x - ax_c a) / dx p - IZR (cell_of p a x).
  Lemma frac_range : forall a x, 0 <= frac_of a x < 1.
  Proof. intros; unfold frac_of, cell_of. pose proof (Zfloor_bounds ((x - ax_c a) / dx p)). lra. Qed.
  (** [x] is not on a grid line of axis [a] *)
  Definition off_line (a : Axis R) (x : R) : Prop := forall n : Z, x <> ax_c a + IZR n * dx p.

  Definition ax_list (a : Axis R) (x : R) : list (AxItem R) :=
    map (fun d => axitem p a x (cell_of p a x - 1 + d)%Z) [0; 1; 2; 3]%Z.

  Lemma off_line_frac : forall a x, off_line a x -> 0 < frac_of a x.
  Proof.
    intros a x H. destruct (frac_range a x) as [H0 _]. destruct H0 as [H0|H0]; auto.
    exfalso. apply (H (cell_of p a x)). unfold frac_of in H0.
    assert (E : (x - ax_c a) / dx p = IZR (cell_of p a x)) by lra. rewrite <- E. field. lra.
  Qed.

  Lemma one_over_inv : one_over_dx p = / dx p.
  Proof. unfold one_over_dx. rewrite nofZ_R. numR. field. lra. Qed.
  Lemma ax_arg : forall a x d, (x - (ax_c a + IZR (cell_of p a x - 1 + d) * dx p)) * one_over_dx p
    = frac_of a x + (1 - IZR d).
  Proof.
    intros. rewrite (one_over_dx_R p Hdx). unfold frac_of. rewrite plus_IZR, minus_IZR. field. lra.
  Qed.
  Lemma ax_pos : forall a x d, ax_c a + IZR (cell_of p a x - 1 + d) * dx p - x
    = - (frac_of a x + (1 - IZR d)) * dx p.
  Proof. intros. unfold frac_of. rewrite plus_IZR, minus_IZR. field. lra. Qed.

  Lemma ax_laws : forall a x,
    AxLaws (spline p = Deg1 -> off_line a x) x (dx p * dx p * kernel_second_moment (spline p) (frac_of a x)) (ax_list a x).
  Proof.
    intros a x. pose proof (frac_range a x) as Hf. set (f := frac_of a x) in *. set (s := spline p).
    assert (L : forall (F : Z -> R -> R -> R -> R),
      Rsum (fun i => F (ai_i i) (ai_x i - x) (ai_w i) (ai_g i)) (ax_list a x)
      = Rsum (fun d => F (cell_of p a x - 1 + d)%Z (- (f + (1 - IZR d)) * dx p) (N s (f + (1 - IZR d))) (dNdu s (f + (1 - IZR d)) * / dx p)) [0;1;2;3]%Z).
    { intros F. unfold ax_list. rewrite Rsum_map. apply Rsum_ext. intros d _. unfold axitem. cbn [ai_i ai_x ai_w ai_g].
      numR. rewrite !ax_arg, ax_pos. fold s f. rewrite one_over_inv. reflexivity. }
    assert (A0 : f + (1 - 0) = f + 1) by lra. assert (A1 : f + (1 - 1) = f) by lra.
    assert (A2 : f + (1 - 2) = f - 1) by lra. assert (A3 : f + (1 - 3) = f - 2) by lra.
    split.
    - intros i Hi. unfold ax_list in Hi. apply in_map_iff in Hi. destruct Hi as (d & <- & _). simpl. apply N_nonneg.
    - rewrite (L (fun _ _ w _ => w)). cbn [Rsum]. rewrite A0, A1, A2, A3. pose proof (N_pou s f Hf). lra.
    - rewrite (L (fun _ y w _ => w * y)). cbn [Rsum]. rewrite A0, A1, A2, A3.
      pose proof (N_first_moment s f Hf) as H.
      match type of H with ?e = 0 => transitivity (dx p * e); [ring|rewrite H; ring] end.
    - rewrite (L (fun _ y w _ => w * (y * y))). cbn [Rsum]. rewrite A0, A1, A2, A3.
      pose proof (N_second_moment s f Hf) as H. rewrite <- H. ring.
    - intros Hg. rewrite (L (fun _ _ _ g => g)). cbn [Rsum]. rewrite A0, A1, A2, A3.
      assert (s = Deg1 -> 0 < f) by (intros; apply off_line_frac; auto).
      pose proof (dN_sum0 s f Hf H) as E. match type of E with ?e = 0 => transitivity (/ dx p * e); [ring|rewrite E; ring] end.
    - intros Hg. rewrite (L (fun _ y _ g => g * y)). cbn [Rsum]. rewrite A0, A1, A2, A3.
      assert (s = Deg1 -> 0 < f) by (intros; apply off_line_frac; auto).
      pose proof (dN_linear s f Hf H) as E. etransitivity; [|exact E]. field. lra.
    - intros i Hi. unfold ax_list in Hi. apply in_map_iff in Hi. destruct Hi as (d & <- & _).
      unfold axitem; cbn [ai_w ai_g]. intros H. apply N_zero_dN_zero in H. numR. rewrite H. lra.
  Qed.
End Ax.

(** ** Well-formed grids *)
Section Stencil.
  Context {G : Geo R} {GL : GeoLaws G}.
  Variable p : Par R.

  Notation GridOk := (GridOk p).
  Definition Covered (axes : list (Axis R)) (x : TV) : Prop :=
    forall k a, nth_error axes k = Some a -> covered p a (vget x k).
  Definition off_lines (axes : list (Axis R)) (x : TV) : Prop :=
    forall k a, nth_error axes k = Some a -> off_line p a (vget x k).

  Record SL (axes : list (Axis R)) (x : TV) (items : list (Item R)) : Prop := {
    sl_w : forall it, In it items -> 0 <= it_w it;
    sl_1 : Rsum (fun it => it_w it) items = 1;
    sl_x : forall k, (k < dim)%nat -> Rsum (fun it => it_w it * (vget (it_x it) k - vget x k)) items = 0;
    sl_xx : spline p <> Deg1 -> forall k l, (k < dim)%nat -> (l < dim)%nat ->
      Rsum (fun it => it_w it * (vget (it_x it) k - vget x k) * (vget (it_x it) l - vget x l)) items
      = if Nat.eqb k l then / apicDinverse p else 0;
    sl_g : (spline p = Deg1 -> off_lines axes x) -> forall k, (k < dim)%nat ->
      Rsum (fun it => vget (it_g it) k) items = 0;
    sl_gx : (spline p = Deg1 -> off_lines axes x) -> forall k l, (k < dim)%nat -> (l < dim)%nat ->
      Rsum (fun it => vget (it_g it) k * (vget (it_x it) l - vget x l)) items
      = if Nat.eqb k l then 1 else 0;
    sl_0 : forall it k, In it items -> (k < dim)%nat -> it_w it = 0 -> vget (it_g it) k = 0;
    sl_nodup : NoDup (map it_idx items);
    sl_len : length items = Nat.pow 4 dim;
    sl_idx : forall it, In it items -> (0 <= it_idx it < prodlen axes)%Z;
    (* which node it is: integer coordinates on every axis *)
    sl_at : forall it, In it items -> exists ijk : nat -> Z,
      (forall k a, nth_error axes k = Some a ->
         (0 <= ijk k < Z.of_nat (lat_n a))%Z /\ vget (it_x it) k = ax_c a + IZR (ijk k) * dx p) /\
      it_idx it = match axes with
                  | [_; ay] => ind2 (ax_n ay) (ijk 0%nat) (ijk 1%nat)
                  | [_; ay; az] => ind3 (ax_n ay) (ax_n az) (ijk 0%nat) (ijk 1%nat) (ijk 2%nat)
                  | _ => 0%Z end
  }.

  Hypothesis Hdx : 0 < dx p.

  Lemma apicD_val : forall a x, spline p <> Deg1 ->
    dx p * dx p * kernel_second_moment (spline p) (frac_of p a x) = / apicDinverse p.
  Proof.
    intros a x H. unfold apicDinverse, kernel_second_moment. rewrite ?nofZ_R.
    destruct (spline p); try congruence; numR; field; lra.
  Qed.

  Lemma covered_n : forall a x, covered p a x -> (4 <= Z.of_nat (lat_n a))%Z.
  Proof. intros a x [H1 H2]; lia. Qed.

  Lemma ax_n_val : forall a, (Z.of_nat (lat_n a) <= 4294967295)%Z -> ax_n a = Z.of_nat (lat_n a).
  Proof. intros; unfold ax_n. apply wrapu_small. unfold lat_n in *. lia. Qed.

  Lemma ax_list_idx : forall a x i, covered p a x -> In i (ax_list p a x) ->
    (0 <= ai_i i < Z.of_nat (lat_n a))%Z /\ ai_x i = ax_c a + IZR (ai_i i) * dx p.
  Proof.
    intros a x i [H1 H2] Hi. unfold ax_list in Hi. apply in_map_iff in Hi. destruct Hi as (d & <- & Hd).
    simpl in Hd. unfold axitem; cbn [ai_i ai_x]. split; [lia|reflexivity].
  Qed.
  Lemma ax_list_nodup : forall a x, NoDup (map ai_i (ax_list p a x)).
  Proof.
    intros. unfold ax_list. rewrite map_map. cbn [map axitem ai_i].
    repeat constructor; simpl; lia.
  Qed.

  (* product structure *)
  Lemma Rsum_items2 : forall ny (f : AxItem R -> R) (g : AxItem R -> R) (F : Item R -> R) xs ys,
    (forall a b, F (item2 ny a b) = f a * g b) ->
    Rsum F (flat_map (fun a => map (item2 ny a) ys) xs) = Rsum f xs * Rsum g ys.
  Proof.
    intros. rewrite Rsum_flat_map, <- Rsum_prod. apply Rsum_ext; intros a _.
    rewrite Rsum_map. apply Rsum_ext; intros; auto.
  Qed.
  Lemma Rsum_items3 : forall ny nz (f g h : AxItem R -> R) (F : Item R -> R) xs ys zs,
    (forall a b c, F (item3 ny nz a b c) = f a * g b * h c) ->
    Rsum F (flat_map (fun a => flat_map (fun b => map (item3 ny nz a b) zs) ys) xs) = Rsum f xs * Rsum g ys * Rsum h zs.
  Proof.
    intros. rewrite Rsum_flat_map.
    rewrite (Rsum_ext _ (fun a => f a * (Rsum g ys * Rsum h zs))).
    - rewrite Rsum_scalr. ring.
    - intros a _. rewrite Rsum_flat_map, <- Rsum_prod, <- Rsum_scal. apply Rsum_ext; intros b _.
      rewrite Rsum_map, <- Rsum_scal. apply Rsum_ext; intros c _. rewrite H. ring.
  Qed.

  Lemma NoDup_flat_map : forall X Y (f : X -> list Y) l,
    NoDup l -> (forall x, In x l -> NoDup (f x)) ->
    (forall x x' y, In x l -> In x' l -> In y (f x) -> In y (f x') -> x = x') -> NoDup (flat_map f l).
  Proof.
    induction l; intros H1 H2 H3; simpl; [constructor|]. inversion H1; subst.
    assert (D : forall l1 l2 : list Y, NoDup l1 -> NoDup l2 -> (forall y, In y l1 -> In y l2 -> False) -> NoDup (l1 ++ l2)).
    { clear. induction l1; intros l2 H1 H2 H; simpl; auto. inversion H1; subst. constructor.
      - rewrite in_app_iff. intros [C|C]; auto. apply (H a); simpl; auto.
      - apply IHl1; auto. intros; apply (H y); simpl; auto. }
    apply D.
    - apply H2; now left.
    - apply IHl; auto. intros; apply H2; now right.
      intros; eapply H3; eauto; now right.
    - intros y Hy Hy'. apply in_flat_map in Hy'. destruct Hy' as (x' & Hx' & Hy').
      assert (a = x') by (eapply H3; eauto; simpl; auto). subst; auto.
  Qed.
  Lemma NoDup_map_inj : forall X Y (f : X -> Y) l, NoDup l ->
    (forall x x', In x l -> In x' l -> f x = f x' -> x = x') -> NoDup (map f l).
  Proof.
    induction l; intros H1 H2; simpl; [constructor|]. inversion H1; subst. constructor.
    - intros C. apply in_map_iff in C. destruct C as (x & E & Hx).
      assert (x = a) by (apply H2; simpl; auto). subst; auto.
    - apply IHl; auto. intros; apply H2; simpl; auto.
  Qed.
  Lemma ax_list_inj : forall a x i j, In i (ax_list p a x) -> In j (ax_list p a x) -> ai_i i = ai_i j -> i = j.
  Proof.
    intros a x i j Hi Hj E. unfold ax_list in *. apply in_map_iff in Hi, Hj.
    destruct Hi as (d & <- & _). destruct Hj as (e & <- & _). unfold axitem in *; cbn [ai_i] in E. now rewrite E.
  Qed.
  Lemma NoDup_ax_list : forall a x, NoDup (ax_list p a x).
  Proof. intros. eapply NoDup_map_inv. apply ax_list_nodup. Qed.

  Definition items2 (ax ay : Axis R) (x : TV) : list (Item R) :=
    flat_map (fun a => map (item2 (ax_n ay) a) (ax_list p ay (vget x 1))) (ax_list p ax (vget x 0)).
  Definition items3 (ax ay az : Axis R) (x : TV) : list (Item R) :=
    flat_map (fun a => flat_map (fun b => map (item3 (ax_n ay) (ax_n az) a b)
      (ax_list p az (vget x 2))) (ax_list p ay (vget x 1))) (ax_list p ax (vget x 0)).

  Lemma nth2 : forall X (a b : X) k c, nth_error [a; b] k = Some c -> (k = 0%nat /\ c = a) \/ (k = 1%nat /\ c = b).
  Proof. intros X a b [|[|[|k]]] c H; simpl in H; try discriminate; injection H as <-; auto. Qed.
  Lemma nth3 : forall X (a b d : X) k c, nth_error [a; b; d] k = Some c ->
    (k = 0%nat /\ c = a) \/ (k = 1%nat /\ c = b) \/ (k = 2%nat /\ c = d).
  Proof. intros X a b d [|[|[|[|k]]]] c H; simpl in H; try discriminate; injection H as <-; auto. Qed.

  Lemma fit2 : forall ax ay x, (prodlen [ax; ay] <= 4294967295)%Z -> Covered [ax; ay] x ->
    (Z.of_nat (lat_n ax) <= 2147483647)%Z /\ (Z.of_nat (lat_n ay) <= 2147483647)%Z.
  Proof.
    intros ax ay x H C.
    pose proof (covered_n _ _ (C 0%nat ax eq_refl)). pose proof (covered_n _ _ (C 1%nat ay eq_refl)).
    unfold prodlen in H; simpl in H. unfold lat_n in *. nia.
  Qed.
  Lemma fit3 : forall ax ay az x, (prodlen [ax; ay; az] <= 4294967295)%Z -> Covered [ax; ay; az] x ->
    (Z.of_nat (lat_n ax) <= 2147483647)%Z /\ (Z.of_nat (lat_n ay) <= 2147483647)%Z /\ (Z.of_nat (lat_n az) <= 2147483647)%Z.
  Proof.
    intros ax ay az x H C.
    pose proof (covered_n _ _ (C 0%nat ax eq_refl)). pose proof (covered_n _ _ (C 1%nat ay eq_refl)).
    pose proof (covered_n _ _ (C 2%nat az eq_refl)).
    unfold prodlen in H; simpl in H. unfold lat_n in *.
    set (a := Z.of_nat (length (ax_co ax))) in *. set (b := Z.of_nat (length (ax_co ay))) in *.
    set (c := Z.of_nat (length (ax_co az))) in *. clearbody a b c.
    assert (16 <= b * c)%Z by nia. assert (4 * (b * c) <= a * (b * c))%Z by nia.
    assert (a * 16 <= a * (b * c))%Z by nia. assert (4 * b <= b * c)%Z by nia. assert (4 * c <= b * c)%Z by nia.
    replace (a * (b * (c * 1)))%Z with (a * (b * c))%Z in H by ring. lia.
  Qed.

  Lemma SL2 : forall ax ay x, dim = 2%nat -> GridOk [ax; ay] -> Covered [ax; ay] x -> SL [ax; ay] x (items2 ax ay x).
  Proof.
    intros ax ay x Hd GO C. destruct (fit2 ax ay x (go_fit _ _ GO) C) as [Fx Fy].
    pose proof (C 0%nat ax eq_refl) as Cx. pose proof (C 1%nat ay eq_refl) as Cy.
    pose proof (ax_laws p Hdx ax (vget x 0)) as Lx. pose proof (ax_laws p Hdx ay (vget x 1)) as Ly.
    pose proof (apicD_val ax (vget x 0)) as Dx. pose proof (apicD_val ay (vget x 1)) as Dy.
    assert (K : forall k, (k < dim)%nat -> k = 0%nat \/ k = 1%nat) by (rewrite Hd; lia).
    assert (G0 : (spline p = Deg1 -> off_lines [ax; ay] x) -> spline p = Deg1 -> off_line p ax (vget x 0)) by (intros h e; apply (h e 0%nat ax eq_refl)).
    assert (G1 : (spline p = Deg1 -> off_lines [ax; ay] x) -> spline p = Deg1 -> off_line p ay (vget x 1)) by (intros h e; apply (h e 1%nat ay eq_refl)).
    assert (I : forall it, In it (items2 ax ay x) -> exists a b, it = item2 (ax_n ay) a b /\ In a (ax_list p ax (vget x 0)) /\ In b (ax_list p ay (vget x 1))).
    { intros it H. apply in_flat_map in H. destruct H as (a & Ha & H). apply in_map_iff in H.
      destruct H as (b & <- & Hb). eauto. }
    assert (V : (prodlen [ax; ay] = Z.of_nat (lat_n ax) * Z.of_nat (lat_n ay))%Z) by (unfold prodlen, lat_n; simpl; ring).
    assert (NY : ax_n ay = Z.of_nat (lat_n ay)) by (apply ax_n_val; lia).
    assert (IX : forall a b, In a (ax_list p ax (vget x 0)) -> In b (ax_list p ay (vget x 1)) ->
      it_idx (item2 (ax_n ay) a b) = (ai_i a * Z.of_nat (lat_n ay) + ai_i b)%Z /\
      (0 <= ai_i a * Z.of_nat (lat_n ay) + ai_i b < prodlen [ax; ay])%Z).
    { intros a b Ha Hb. apply ax_list_idx in Ha; auto. apply ax_list_idx in Hb; auto.
      unfold item2; cbn [it_idx]. rewrite NY, V. apply ind2_val; try tauto. rewrite <- V. apply GO. }
    split.
    - intros it H. destruct (I it H) as (a & b & -> & Ha & Hb). unfold item2; cbn [it_w]. numR.
      apply Rmult_le_pos; [exact (al_w _ _ _ _ Lx a Ha)|exact (al_w _ _ _ _ Ly b Hb)].
    - unfold items2. rewrite (Rsum_items2 _ (fun a => ai_w a) (fun b => ai_w b)) by reflexivity.
      rewrite (al_1 _ _ _ _ Lx), (al_1 _ _ _ _ Ly). ring.
    - intros k Hk. unfold items2. destruct (K k Hk) as [->| ->].
      + rewrite (Rsum_items2 _ (fun a => ai_w a * (ai_x a - vget x 0)) (fun b => ai_w b)).
        * rewrite (al_x _ _ _ _ Lx), (al_1 _ _ _ _ Ly). ring.
        * intros; unfold item2; cbn [it_w it_x]. autorewrite with geo. simpl Nat.eqb. cbv iota. numR. ring.
      + rewrite (Rsum_items2 _ (fun a => ai_w a) (fun b => ai_w b * (ai_x b - vget x 1))).
        * rewrite (al_1 _ _ _ _ Lx), (al_x _ _ _ _ Ly). ring.
        * intros; unfold item2; cbn [it_w it_x]. autorewrite with geo. simpl Nat.eqb. cbv iota. numR. ring.
    - intros Hs k l Hk Hl. specialize (Dx Hs). specialize (Dy Hs).
      unfold items2. destruct (K k Hk) as [->| ->]; destruct (K l Hl) as [->| ->]; simpl Nat.eqb; cbv iota.
      + rewrite (Rsum_items2 _ (fun a => ai_w a * ((ai_x a - vget x 0) * (ai_x a - vget x 0))) (fun b => ai_w b)).
        * rewrite (al_xx _ _ _ _ Lx), (al_1 _ _ _ _ Ly). lra.
        * intros; unfold item2; cbn [it_w it_x]. autorewrite with geo. simpl Nat.eqb. cbv iota. numR. ring.
      + rewrite (Rsum_items2 _ (fun a => ai_w a * (ai_x a - vget x 0)) (fun b => ai_w b * (ai_x b - vget x 1))).
        * rewrite (al_x _ _ _ _ Lx). ring.
        * intros; unfold item2; cbn [it_w it_x]. autorewrite with geo. simpl Nat.eqb. cbv iota. numR. ring.
      + rewrite (Rsum_items2 _ (fun a => ai_w a * (ai_x a - vget x 0)) (fun b => ai_w b * (ai_x b - vget x 1))).
        * rewrite (al_x _ _ _ _ Lx). ring.
        * intros; unfold item2; cbn [it_w it_x]. autorewrite with geo. simpl Nat.eqb. cbv iota. numR. ring.
      + rewrite (Rsum_items2 _ (fun a => ai_w a) (fun a => ai_w a * ((ai_x a - vget x 1) * (ai_x a - vget x 1)))).
        * rewrite (al_1 _ _ _ _ Lx), (al_xx _ _ _ _ Ly). lra.
        * intros; unfold item2; cbn [it_w it_x]. autorewrite with geo. simpl Nat.eqb. cbv iota. numR. ring.
    - intros Hg k Hk. unfold items2. destruct (K k Hk) as [->| ->].
      + rewrite (Rsum_items2 _ (fun a => ai_g a) (fun b => ai_w b)).
        * rewrite (al_g _ _ _ _ Lx) by auto. ring.
        * intros; unfold item2; cbn [it_g]. autorewrite with geo. simpl Nat.eqb. cbv iota. numR. ring.
      + rewrite (Rsum_items2 _ (fun a => ai_w a) (fun b => ai_g b)).
        * rewrite (al_g _ _ _ _ Ly) by auto. ring.
        * intros; unfold item2; cbn [it_g]. autorewrite with geo. simpl Nat.eqb. cbv iota. numR. ring.
    - intros Hg k l Hk Hl. unfold items2. destruct (K k Hk) as [->| ->]; destruct (K l Hl) as [->| ->]; simpl Nat.eqb; cbv iota.
      + rewrite (Rsum_items2 _ (fun a => ai_g a * (ai_x a - vget x 0)) (fun b => ai_w b)).
        * rewrite (al_gx _ _ _ _ Lx), (al_1 _ _ _ _ Ly) by auto. ring.
        * intros; unfold item2; cbn [it_g it_x]. autorewrite with geo. simpl Nat.eqb. cbv iota. numR. ring.
      + rewrite (Rsum_items2 _ (fun a => ai_g a) (fun b => ai_w b * (ai_x b - vget x 1))).
        * rewrite (al_g _ _ _ _ Lx) by auto. ring.
        * intros; unfold item2; cbn [it_g it_x]. autorewrite with geo. simpl Nat.eqb. cbv iota. numR. ring.
      + rewrite (Rsum_items2 _ (fun a => ai_w a * (ai_x a - vget x 0)) (fun b => ai_g b)).
        * rewrite (al_g _ _ _ _ Ly) by auto. ring.
        * intros; unfold item2; cbn [it_g it_x]. autorewrite with geo. simpl Nat.eqb. cbv iota. numR. ring.
      + rewrite (Rsum_items2 _ (fun a => ai_w a) (fun b => ai_g b * (ai_x b - vget x 1))).
        * rewrite (al_1 _ _ _ _ Lx), (al_gx _ _ _ _ Ly) by auto. ring.
        * intros; unfold item2; cbn [it_g it_x]. autorewrite with geo. simpl Nat.eqb. cbv iota. numR. ring.
    - intros it k H Hk. destruct (I it H) as (a & b & -> & Ha & Hb). unfold item2; cbn [it_w it_g].
      pose proof (al_0 _ _ _ _ Lx a Ha) as Za. pose proof (al_0 _ _ _ _ Ly b Hb) as Zb. numR. intros W.
      apply Rmult_integral in W.
      destruct (K k Hk) as [->| ->]; autorewrite with geo; simpl Nat.eqb; cbv iota;
        (destruct W as [W|W]; [rewrite ?W, ?(Za W)|rewrite ?W, ?(Zb W)]; ring).
    - unfold items2. rewrite flat_map_concat_map, concat_map, map_map.
      rewrite <- flat_map_concat_map. apply NoDup_flat_map; [apply NoDup_ax_list| |].
      + intros a Ha. rewrite map_map. apply NoDup_map_inj; [apply NoDup_ax_list|].
        intros b b' Hb Hb' E. destruct (IX a b Ha Hb) as [E1 _]. destruct (IX a b' Ha Hb') as [E2 _].
        rewrite E1, E2 in E. eapply ax_list_inj; eauto. lia.
      + intros a a' i Ha Ha' Hi Hi'. rewrite map_map in Hi, Hi'. apply in_map_iff in Hi, Hi'.
        destruct Hi as (b & Eb & Hb). destruct Hi' as (b' & Eb' & Hb').
        destruct (IX a b Ha Hb) as [E1 _]. destruct (IX a' b' Ha' Hb') as [E2 _].
        eapply ax_list_inj; eauto.
        apply ax_list_idx in Hb; auto. apply ax_list_idx in Hb'; auto.
        assert (E : (ai_i a * Z.of_nat (lat_n ay) + ai_i b = ai_i a' * Z.of_nat (lat_n ay) + ai_i b')%Z) by congruence.
        apply lin_inj in E; [|apply Hb|apply Hb']. apply E.
    - rewrite Hd. reflexivity.
    - intros it H. destruct (I it H) as (a & b & -> & Ha & Hb). destruct (IX a b Ha Hb) as [-> ?]. auto.
    - intros it H. destruct (I it H) as (a & b & -> & Ha & Hb).
      exists (fun k => match k with O => ai_i a | _ => ai_i b end). split; [|reflexivity].
      apply ax_list_idx in Ha; auto. apply ax_list_idx in Hb; auto.
      intros k c Hc. apply nth2 in Hc. destruct Hc as [[-> ->]|[-> ->]]; unfold item2; cbn [it_x];
        autorewrite with geo; simpl Nat.eqb; cbv iota; auto.
  Qed.

  Lemma vs3_0 : forall a b c : R, vget (vset (vset (vset vzero 0 a) 1 b) 2 c) 0 = a.
  Proof. intros. rewrite !vget_set by (apply dim_pos). reflexivity. Qed.
  Lemma vs3_1 : forall a b c : R, vget (vset (vset (vset vzero 0 a) 1 b) 2 c) 1 = b.
  Proof. intros. rewrite !vget_set by (apply dim_1). reflexivity. Qed.
  Lemma vs3_2 : forall a b c : R, (2 < dim)%nat -> vget (vset (vset (vset vzero 0 a) 1 b) 2 c) 2 = c.
  Proof. intros. rewrite !vget_set by auto. reflexivity. Qed.
  Lemma SL3 : forall ax ay az x, dim = 3%nat -> GridOk [ax; ay; az] -> Covered [ax; ay; az] x -> SL [ax; ay; az] x (items3 ax ay az x).
  Proof.
    intros ax ay az x Hd GO C. destruct (fit3 ax ay az x (go_fit _ _ GO) C) as (Fx & Fy & Fz).
    pose proof (C 0%nat ax eq_refl) as Cx. pose proof (C 1%nat ay eq_refl) as Cy. pose proof (C 2%nat az eq_refl) as Cz.
    pose proof (ax_laws p Hdx ax (vget x 0)) as Lx. pose proof (ax_laws p Hdx ay (vget x 1)) as Ly.
    pose proof (ax_laws p Hdx az (vget x 2)) as Lz.
    pose proof (apicD_val ax (vget x 0)) as Dx. pose proof (apicD_val ay (vget x 1)) as Dy. pose proof (apicD_val az (vget x 2)) as Dz.
    assert (K : forall k, (k < dim)%nat -> k = 0%nat \/ k = 1%nat \/ k = 2%nat) by (rewrite Hd; lia).
    assert (D2 : (2 < dim)%nat) by lia.
    assert (G0 : (spline p = Deg1 -> off_lines [ax; ay; az] x) -> spline p = Deg1 -> off_line p ax (vget x 0)) by (intros h e; apply (h e 0%nat ax eq_refl)).
    assert (G1 : (spline p = Deg1 -> off_lines [ax; ay; az] x) -> spline p = Deg1 -> off_line p ay (vget x 1)) by (intros h e; apply (h e 1%nat ay eq_refl)).
    assert (G2 : (spline p = Deg1 -> off_lines [ax; ay; az] x) -> spline p = Deg1 -> off_line p az (vget x 2)) by (intros h e; apply (h e 2%nat az eq_refl)).
    assert (I : forall it, In it (items3 ax ay az x) -> exists a b c, it = item3 (ax_n ay) (ax_n az) a b c /\
      In a (ax_list p ax (vget x 0)) /\ In b (ax_list p ay (vget x 1)) /\ In c (ax_list p az (vget x 2))).
    { intros it H. apply in_flat_map in H. destruct H as (a & Ha & H). apply in_flat_map in H.
      destruct H as (b & Hb & H). apply in_map_iff in H. destruct H as (c & <- & Hc). exists a, b, c; auto. }
    assert (V : (prodlen [ax; ay; az] = Z.of_nat (lat_n ax) * Z.of_nat (lat_n ay) * Z.of_nat (lat_n az))%Z) by (unfold prodlen, lat_n; simpl; ring).
    assert (NY : ax_n ay = Z.of_nat (lat_n ay)) by (apply ax_n_val; lia).
    assert (NZ : ax_n az = Z.of_nat (lat_n az)) by (apply ax_n_val; lia).
    assert (IX : forall a b c, In a (ax_list p ax (vget x 0)) -> In b (ax_list p ay (vget x 1)) -> In c (ax_list p az (vget x 2)) ->
      it_idx (item3 (ax_n ay) (ax_n az) a b c) = ((ai_i a * Z.of_nat (lat_n ay) + ai_i b) * Z.of_nat (lat_n az) + ai_i c)%Z /\
      (0 <= (ai_i a * Z.of_nat (lat_n ay) + ai_i b) * Z.of_nat (lat_n az) + ai_i c < prodlen [ax; ay; az])%Z).
    { intros a b c Ha Hb Hc. apply ax_list_idx in Ha; auto. apply ax_list_idx in Hb; auto. apply ax_list_idx in Hc; auto.
      unfold item3; cbn [it_idx]. rewrite NY, NZ, V. apply ind3_val; [apply Ha|apply Hb|apply Hc|]. rewrite <- V. apply GO. }
    Ltac it3 := intros; unfold item3; cbn [it_w it_g it_x]; rewrite ?vs3_0, ?vs3_1, ?vs3_2 by assumption; numR; ring.
    set (W := fun a : AxItem R => ai_w a).
    set (X := fun k (a : AxItem R) => ai_w a * (ai_x a - vget x k)).
    set (XX := fun k (a : AxItem R) => ai_w a * ((ai_x a - vget x k) * (ai_x a - vget x k))).
    set (Gd := fun a : AxItem R => ai_g a).
    set (GX := fun k (a : AxItem R) => ai_g a * (ai_x a - vget x k)).
    pose proof (al_1 _ _ _ _ Lx : Rsum W _ = _) as Wx. pose proof (al_1 _ _ _ _ Ly : Rsum W _ = _) as Wy. pose proof (al_1 _ _ _ _ Lz : Rsum W _ = _) as Wz.
    pose proof (al_x _ _ _ _ Lx : Rsum (X 0%nat) _ = _) as Xx. pose proof (al_x _ _ _ _ Ly : Rsum (X 1%nat) _ = _) as Xy. pose proof (al_x _ _ _ _ Lz : Rsum (X 2%nat) _ = _) as Xz.
    pose proof (al_xx _ _ _ _ Lx : Rsum (XX 0%nat) _ = _) as XXx. pose proof (al_xx _ _ _ _ Ly : Rsum (XX 1%nat) _ = _) as XXy. pose proof (al_xx _ _ _ _ Lz : Rsum (XX 2%nat) _ = _) as XXz.
    split.
    - intros it H. destruct (I it H) as (a & b & c & -> & Ha & Hb & Hc). unfold item3; cbn [it_w]. numR.
      apply Rmult_le_pos; [apply Rmult_le_pos|]; [exact (al_w _ _ _ _ Lx a Ha)|exact (al_w _ _ _ _ Ly b Hb)|exact (al_w _ _ _ _ Lz c Hc)].
    - unfold items3. rewrite (Rsum_items3 _ _ W W W) by reflexivity. rewrite Wx, Wy, Wz. ring.
    - intros k Hk. unfold items3. destruct (K k Hk) as [->|[->| ->]].
      + rewrite (Rsum_items3 _ _ (X 0%nat) W W) by (unfold X, W; it3). rewrite Xx. ring.
      + rewrite (Rsum_items3 _ _ W (X 1%nat) W) by (unfold X, W; it3). rewrite Xy. ring.
      + rewrite (Rsum_items3 _ _ W W (X 2%nat)) by (unfold X, W; it3). rewrite Xz. ring.
    - intros Hs k l Hk Hl. specialize (Dx Hs). specialize (Dy Hs). specialize (Dz Hs). unfold items3.
      destruct (K k Hk) as [->|[->| ->]]; destruct (K l Hl) as [->|[->| ->]]; simpl Nat.eqb; cbv iota.
      + rewrite (Rsum_items3 _ _ (XX 0%nat) W W) by (unfold XX, W; it3). rewrite XXx, Wy, Wz. lra.
      + rewrite (Rsum_items3 _ _ (X 0%nat) (X 1%nat) W) by (unfold X, W; it3). rewrite Xx. ring.
      + rewrite (Rsum_items3 _ _ (X 0%nat) W (X 2%nat)) by (unfold X, W; it3). rewrite Xx. ring.
      + rewrite (Rsum_items3 _ _ (X 0%nat) (X 1%nat) W) by (unfold X, W; it3). rewrite Xx. ring.
      + rewrite (Rsum_items3 _ _ W (XX 1%nat) W) by (unfold XX, W; it3). rewrite XXy, Wx, Wz. lra.
      + rewrite (Rsum_items3 _ _ W (X 1%nat) (X 2%nat)) by (unfold X, W; it3). rewrite Xy. ring.
      + rewrite (Rsum_items3 _ _ (X 0%nat) W (X 2%nat)) by (unfold X, W; it3). rewrite Xx. ring.
      + rewrite (Rsum_items3 _ _ W (X 1%nat) (X 2%nat)) by (unfold X, W; it3). rewrite Xy. ring.
      + rewrite (Rsum_items3 _ _ W W (XX 2%nat)) by (unfold XX, W; it3). rewrite XXz, Wx, Wy. lra.
    - intros Hg k Hk. unfold items3.
      pose proof (al_g _ _ _ _ Lx (G0 Hg) : Rsum Gd _ = _) as Gx. pose proof (al_g _ _ _ _ Ly (G1 Hg) : Rsum Gd _ = _) as Gy. pose proof (al_g _ _ _ _ Lz (G2 Hg) : Rsum Gd _ = _) as Gz.
      destruct (K k Hk) as [->|[->| ->]].
      + rewrite (Rsum_items3 _ _ Gd W W) by (unfold Gd, W; it3). rewrite Gx. ring.
      + rewrite (Rsum_items3 _ _ W Gd W) by (unfold Gd, W; it3). rewrite Gy. ring.
      + rewrite (Rsum_items3 _ _ W W Gd) by (unfold Gd, W; it3). rewrite Gz. ring.
    - intros Hg k l Hk Hl. unfold items3.
      pose proof (al_g _ _ _ _ Lx (G0 Hg) : Rsum Gd _ = _) as Gx. pose proof (al_g _ _ _ _ Ly (G1 Hg) : Rsum Gd _ = _) as Gy. pose proof (al_g _ _ _ _ Lz (G2 Hg) : Rsum Gd _ = _) as Gz.
      pose proof (al_gx _ _ _ _ Lx (G0 Hg) : Rsum (GX 0%nat) _ = _) as GXx. pose proof (al_gx _ _ _ _ Ly (G1 Hg) : Rsum (GX 1%nat) _ = _) as GXy. pose proof (al_gx _ _ _ _ Lz (G2 Hg) : Rsum (GX 2%nat) _ = _) as GXz.
      destruct (K k Hk) as [->|[->| ->]]; destruct (K l Hl) as [->|[->| ->]]; simpl Nat.eqb; cbv iota.
      + rewrite (Rsum_items3 _ _ (GX 0%nat) W W) by (unfold GX, W; it3). rewrite GXx, Wy, Wz. lra.
      + rewrite (Rsum_items3 _ _ Gd (X 1%nat) W) by (unfold X, Gd, W; it3). rewrite Gx. ring.
      + rewrite (Rsum_items3 _ _ Gd W (X 2%nat)) by (unfold X, Gd, W; it3). rewrite Gx. ring.
      + rewrite (Rsum_items3 _ _ (X 0%nat) Gd W) by (unfold X, Gd, W; it3). rewrite Xx. ring.
      + rewrite (Rsum_items3 _ _ W (GX 1%nat) W) by (unfold GX, W; it3). rewrite GXy, Wx, Wz. lra.
      + rewrite (Rsum_items3 _ _ W Gd (X 2%nat)) by (unfold X, Gd, W; it3). rewrite Gy. ring.
      + rewrite (Rsum_items3 _ _ (X 0%nat) W Gd) by (unfold X, Gd, W; it3). rewrite Xx. ring.
      + rewrite (Rsum_items3 _ _ W (X 1%nat) Gd) by (unfold X, Gd, W; it3). rewrite Xy. ring.
      + rewrite (Rsum_items3 _ _ W W (GX 2%nat)) by (unfold GX, W; it3). rewrite GXz, Wx, Wy. lra.
    - intros it k H Hk. destruct (I it H) as (a & b & c & -> & Ha & Hb & Hc). unfold item3; cbn [it_w it_g].
      pose proof (al_0 _ _ _ _ Lx a Ha) as Za. pose proof (al_0 _ _ _ _ Ly b Hb) as Zb. pose proof (al_0 _ _ _ _ Lz c Hc) as Zc. numR. intros Wt.
      apply Rmult_integral in Wt.
      destruct (K k Hk) as [->|[->| ->]]; autorewrite with geo; simpl Nat.eqb; cbv iota;
        (destruct Wt as [Wt|Wt]; [apply Rmult_integral in Wt; destruct Wt as [Wt|Wt]|];
         [rewrite ?Wt, ?(Za Wt)|rewrite ?Wt, ?(Zb Wt)|rewrite ?Wt, ?(Zc Wt)]; ring).
    - unfold items3. rewrite flat_map_concat_map, concat_map, map_map.
      rewrite <- flat_map_concat_map. apply NoDup_flat_map; [apply NoDup_ax_list| |].
      + intros a Ha. rewrite flat_map_concat_map, concat_map, map_map.
        rewrite <- flat_map_concat_map. apply NoDup_flat_map; [apply NoDup_ax_list| |].
        * intros b Hb. rewrite map_map. apply NoDup_map_inj; [apply NoDup_ax_list|].
          intros c c' Hc Hc' E. destruct (IX a b c Ha Hb Hc) as [E1 _]. destruct (IX a b c' Ha Hb Hc') as [E2 _].
          rewrite E1, E2 in E. eapply ax_list_inj; eauto. lia.
        * intros b b' i Hb Hb' Hi Hi'. rewrite map_map in Hi, Hi'. apply in_map_iff in Hi, Hi'.
          destruct Hi as (c & Ec & Hc). destruct Hi' as (c' & Ec' & Hc').
          destruct (IX a b c Ha Hb Hc) as [E1 _]. destruct (IX a b' c' Ha Hb' Hc') as [E2 _].
          eapply ax_list_inj; eauto.
          apply ax_list_idx in Hc; auto. apply ax_list_idx in Hc'; auto.
          assert (E : ((ai_i a * Z.of_nat (lat_n ay) + ai_i b) * Z.of_nat (lat_n az) + ai_i c = (ai_i a * Z.of_nat (lat_n ay) + ai_i b') * Z.of_nat (lat_n az) + ai_i c')%Z) by congruence.
          apply lin_inj in E; [|apply Hc|apply Hc']. lia.
      + intros a a' i Ha Ha' Hi Hi'. rewrite flat_map_concat_map, concat_map, map_map, <- flat_map_concat_map in Hi, Hi'.
        apply in_flat_map in Hi, Hi'. destruct Hi as (b & Hb & Hi). destruct Hi' as (b' & Hb' & Hi').
        rewrite map_map in Hi, Hi'. apply in_map_iff in Hi, Hi'.
        destruct Hi as (c & Ec & Hc). destruct Hi' as (c' & Ec' & Hc').
        destruct (IX a b c Ha Hb Hc) as [E1 _]. destruct (IX a' b' c' Ha' Hb' Hc') as [E2 _].
        eapply ax_list_inj; eauto.
        apply ax_list_idx in Hc; auto. apply ax_list_idx in Hc'; auto.
        apply ax_list_idx in Hb; auto. apply ax_list_idx in Hb'; auto.
        assert (E : ((ai_i a * Z.of_nat (lat_n ay) + ai_i b) * Z.of_nat (lat_n az) + ai_i c = (ai_i a' * Z.of_nat (lat_n ay) + ai_i b') * Z.of_nat (lat_n az) + ai_i c')%Z) by congruence.
        apply lin_inj in E; [|apply Hc|apply Hc']. destruct E as [E _]. apply lin_inj in E; [|apply Hb|apply Hb']. apply E.
    - rewrite Hd. reflexivity.
    - intros it H. destruct (I it H) as (a & b & c & -> & Ha & Hb & Hc). destruct (IX a b c Ha Hb Hc) as [-> ?]. auto.
    - intros it H. destruct (I it H) as (a & b & c & -> & Ha & Hb & Hc).
      exists (fun k => match k with O => ai_i a | S O => ai_i b | _ => ai_i c end). split; [|reflexivity].
      apply ax_list_idx in Ha; auto. apply ax_list_idx in Hb; auto. apply ax_list_idx in Hc; auto.
      intros k e He. apply nth3 in He. destruct He as [[-> ->]|[[-> ->]|[-> ->]]]; unfold item3; cbn [it_x];
        autorewrite with geo; simpl Nat.eqb; cbv iota; auto.
  Qed.

  Definition items_of (axes : list (Axis R)) (x : TV) : list (Item R) :=
    match axes with
    | [ax; ay] => items2 ax ay x
    | [ax; ay; az] => items3 ax ay az x
    | _ => []
    end.

  Lemma axes_cases : forall axes : list (Axis R), length axes = dim ->
    (dim = 2%nat /\ exists ax ay, axes = [ax; ay]) \/ (dim = 3%nat /\ exists ax ay az, axes = [ax; ay; az]).
  Proof.
    intros axes H. destruct gl_dim as [D|D]; rewrite D in H; [left|right]; (split; auto);
      destruct axes as [|a [|b [|c [|d r]]]]; simpl in H; try lia; eauto.
  Qed.

  Theorem stencil_cov : forall axes x, GridOk axes -> Covered axes x ->
    stencil base_p2g p axes x = Ok (items_of axes x) /\
    stencil base_g2p p axes x = Ok (items_of axes x) /\ SL axes x (items_of axes x).
  Proof.
    intros axes x GO C.
    destruct (axes_cases axes (go_dim _ _ GO)) as [(D & ax & ay & ->)|(D & ax & ay & az & ->)].
    - pose proof (C 0%nat ax eq_refl) as Cx. pose proof (C 1%nat ay eq_refl) as Cy.
      destruct (fit2 ax ay x (go_fit _ _ GO) C) as [Fx Fy].
      pose proof (go_lat _ _ GO) as L. inversion L as [|? ? Lx L']; subst. inversion L' as [|? ? Ly _]; subst.
      unfold stencil. rewrite !base_p2g_cov, !base_g2p_cov by auto. cbn [bind].
      destruct Cx as [? ?], Cy as [? ?].
      rewrite !ax_items_cov by (auto; lia). cbn [bind]. split; [reflexivity|]. split; [reflexivity|]. apply SL2; auto.
    - pose proof (C 0%nat ax eq_refl) as Cx. pose proof (C 1%nat ay eq_refl) as Cy. pose proof (C 2%nat az eq_refl) as Cz.
      destruct (fit3 ax ay az x (go_fit _ _ GO) C) as (Fx & Fy & Fz).
      pose proof (go_lat _ _ GO) as L. inversion L as [|? ? Lx L']; subst. inversion L' as [|? ? Ly L'']; subst. inversion L'' as [|? ? Lz _]; subst.
      unfold stencil. rewrite !base_p2g_cov, !base_g2p_cov by auto. cbn [bind].
      destruct Cx as [? ?], Cy as [? ?], Cz as [? ?].
      rewrite !ax_items_cov by (auto; lia). cbn [bind]. split; [reflexivity|]. split; [reflexivity|]. apply SL3; auto.
  Qed.
  (** If grid-to-particle does not hit undefined behaviour, the particle's stencil is in the grid. *)
  Theorem stencil_g2p_covered : forall axes x items, GridOk axes ->
    stencil base_g2p p axes x = Ok items -> Covered axes x.
  Proof.
    intros axes x items GO H. pose proof (go_lat _ _ GO) as L.
    destruct (axes_cases axes (go_dim _ _ GO)) as [(D & ax & ay & ->)|(D & ax & ay & az & ->)]; unfold stencil in H; invb.
    - inversion L as [|? ? Lx L']; subst. inversion L' as [|? ? Ly _]; subst.
      apply base_g2p_inv in E, E0; auto. apply ax_items_inv in E1, E2; auto.
      intros k a Ha. apply nth2 in Ha. destruct Ha as [[-> ->]|[-> ->]]; split; lia.
    - inversion L as [|? ? Lx L']; subst. inversion L' as [|? ? Ly L'']; subst. inversion L'' as [|? ? Lz _]; subst.
      apply base_g2p_inv in E, E0, E1; auto. apply ax_items_inv in E2, E3, E4; auto.
      intros k a Ha. apply nth3 in Ha. destruct Ha as [[-> ->]|[[-> ->]|[-> ->]]]; split; lia.
  Qed.
End Stencil.
