(** * GradProofs: gradient weights are derivatives of the weights (C02). *)
From Coq Require Import Reals ZArith Lra Lia List Bool.
From Coquelicot Require Import Coquelicot.
From Verif Require Import Num NumR Tools Lin Types Remesh Objects Transfer LinProofs ResProofs
  KernelProofs GridProofs StencilProofs RemeshProofs Spec.
Import ListNotations.
Local Open Scope R_scope.

(** A function with different one-sided slopes has no derivative. *)
Lemma kink_no_derive : forall (g : R -> R) x a b d, a <> b ->
  (forall h, 0 < h < 1 -> g (x + h) - g x = a * h) ->
  (forall h, 0 < h < 1 -> g (x - h) - g x = - b * h) -> ~ is_derive g x d.
Proof.
  intros g x a b d Hab Hr Hl H. apply is_derive_Reals in H.
  assert (He : 0 < Rabs (a - b) / 4) by (apply Rdiv_lt_0_compat; [apply Rabs_pos_lt; lra|lra]).
  destruct (H _ He) as [del Hd]. set (e := Rabs (a - b) / 4) in *.
  set (h := Rmin (del / 2) (1 / 2)). pose proof (cond_pos del).
  assert (h1 : 0 < h) by (apply Rmin_pos; lra).
  assert (h2 : h <= 1/2) by apply Rmin_r. assert (h3 : h <= del / 2) by apply Rmin_l.
  assert (A1 : Rabs (a - d) < e).
  { specialize (Hd h). rewrite Hr in Hd by lra. replace (a * h / h) with a in Hd by (field; lra).
    apply Hd; [lra|rewrite Rabs_pos_eq; lra]. }
  assert (A2 : Rabs (b - d) < e).
  { specialize (Hd (- h)). replace (x + - h) with (x - h) in Hd by ring. rewrite Hl in Hd by lra.
    replace (- b * h / - h) with b in Hd by (field; lra).
    apply Hd; [lra|rewrite Rabs_Ropp, Rabs_pos_eq; lra]. }
  assert (Rabs (a - b) < 2 * e).
  { replace (a - b) with ((a - d) + - (b - d)) by ring. eapply Rle_lt_trans; [apply Rabs_triang|].
    rewrite Rabs_Ropp. lra. }
  unfold e in H1. pose proof (Rabs_pos (a - b)). lra.
Qed.

Lemma N1_kinks : forall u d, u = 0 \/ u = 1 \/ u = -1 -> ~ is_derive (N1 : R -> R) u d.
Proof.
  intros u d [->|[->| ->]].
  - apply kink_no_derive with (-1) 1; [lra| |]; intros h Hh; kunf; repeat rabs1; rcase.
  - apply kink_no_derive with 0 (-1); [lra| |]; intros h Hh; kunf; repeat rabs1; rcase.
  - apply kink_no_derive with 1 0; [lra| |]; intros h Hh; kunf; repeat rabs1; rcase.
Qed.

Lemma N_derive : forall s (u : R), (s = Deg1 -> u <> 0 /\ Rabs u <> 1) -> is_derive (N s : R -> R) u (dNdu s u).
Proof.
  intros [] u H.
  - destruct (H eq_refl). apply N1_derive; auto.
  - apply N2_derive.
  - apply N3_derive.
Qed.
Lemma N_derive_exists : forall s (u d : R), is_derive (N s : R -> R) u d -> d = dNdu s u.
Proof.
  intros s u d H.
  assert (C : (s = Deg1 -> u <> 0 /\ Rabs u <> 1)).
  { intros ->. split; intros E; revert H; apply N1_kinks; auto.
    revert E. unfold Rabs. destruct (Rcase_abs u); lra. }
  pose proof (N_derive s u C) as H'. apply is_derive_unique in H. apply is_derive_unique in H'. congruence.
Qed.

Lemma Rderive_ext : forall (f g : R -> R) x d, (forall t : R, f t = g t :> R) -> is_derive f x d -> is_derive g x d.
Proof. intros f g x d H. apply is_derive_ext. exact H. Qed.

Section Grad.
  Context {G : Geo R} {GL : GeoLaws G}.
  Variable p : Par R.
  Hypothesis Hdx : 0 < dx p.

  Lemma N_scaled_derive : forall X x, (spline p = Deg1 -> forall n : Z, x <> X + IZR n * dx p) ->
    is_derive (fun t => N (spline p) ((t - X) / dx p)) x (dNdu (spline p) ((x - X) / dx p) * / dx p).
  Proof.
    intros X x H.
    assert (C : spline p = Deg1 -> (x - X) / dx p <> 0 /\ Rabs ((x - X) / dx p) <> 1).
    { intros E. specialize (H E). set (u := (x - X) / dx p). assert (U : x = X + u * dx p) by (unfold u; field; lra).
      split; [intros U0; apply (H 0%Z)|unfold Rabs; destruct (Rcase_abs u); intros U0; [apply (H (-1)%Z)|apply (H 1%Z)]]; nra. }
    rewrite Rmult_comm.
    apply (is_derive_comp (N (spline p) : R -> R) (fun t => (t - X) / dx p)).
    - apply N_derive; auto.
    - auto_derive; [lra|]. field. lra.
  Qed.

  Lemma weight2 : forall X x, dim = 2%nat -> weight p X x =
    N (spline p) ((vget x 0 - vget X 0) / dx p) * N (spline p) ((vget x 1 - vget X 1) / dx p).
  Proof. intros X x D. unfold weight. rewrite D. simpl. ring. Qed.
  Lemma weight3 : forall X x, dim = 3%nat -> weight p X x =
    N (spline p) ((vget x 0 - vget X 0) / dx p) * N (spline p) ((vget x 1 - vget X 1) / dx p)
    * N (spline p) ((vget x 2 - vget X 2) / dx p).
  Proof. intros X x D. unfold weight. rewrite D. simpl. ring. Qed.
  Lemma derive_mult_const : forall (f : R -> R) x d c c', is_derive f x d -> is_derive (fun t => c * f t * c') x (c * d * c').
  Proof.
    intros f x d c c' H. apply (Rderive_ext (fun t => (c * c') * f t)); [intros; ring|].
    replace (c * d * c') with ((c * c') * d) by ring. apply is_derive_scal; auto.
  Qed.

  Theorem item_weight : forall axes x it, GridOk p axes -> Covered p axes x -> In it (items_of p axes x) ->
    it_w it = weight p (it_x it) x.
  Proof.
    intros axes x it GO C Hi.
    assert (AX : forall a y i, In i (ax_list p a y) -> ai_w i = N (spline p) ((y - ai_x i) / dx p)).
    { intros a y i Hin. unfold ax_list in Hin. apply in_map_iff in Hin. destruct Hin as (d & <- & _).
      unfold axitem; cbn [ai_w ai_x]. now rewrite !one_over_dx_R by auto. }
    destruct (axes_cases axes (go_dim _ _ GO)) as [(D & ax & ay & ->)|(D & ax & ay & az & ->)]; unfold items_of, items2, items3 in Hi.
    - apply in_flat_map in Hi. destruct Hi as (a & Ha & H). apply in_map_iff in H. destruct H as (b & <- & Hb).
      unfold item2; cbn [it_w it_x]. rewrite weight2 by auto. autorewrite with geo. simpl Nat.eqb. cbv iota.
      rewrite (AX _ _ _ Ha), (AX _ _ _ Hb). reflexivity.
    - apply in_flat_map in Hi. destruct Hi as (a & Ha & H). apply in_flat_map in H. destruct H as (b & Hb & H).
      apply in_map_iff in H. destruct H as (c & <- & Hc). assert (D2 : (2 < dim)%nat) by lia.
      unfold item3; cbn [it_w it_x]. rewrite weight3 by auto. autorewrite with geo. simpl Nat.eqb. cbv iota.
      rewrite (AX _ _ _ Ha), (AX _ _ _ Hb), (AX _ _ _ Hc). reflexivity.
  Qed.

  Theorem item_grad : forall axes x it k, GridOk p axes -> Covered p axes x -> In it (items_of p axes x) ->
    (spline p = Deg1 -> off_lines p axes x) -> (k < dim)%nat ->
    it_w it = weight p (it_x it) x /\
    is_derive (fun t => weight p (it_x it) (vset x k t)) (vget x k) (vget (it_g it) k).
  Proof.
    intros axes x it k GO C Hi Hoff Hk.
    assert (AX : forall a y i, In i (ax_list p a y) -> ai_w i = N (spline p) ((y - ai_x i) / dx p) /\
      ai_g i = dNdu (spline p) ((y - ai_x i) / dx p) * / dx p /\ (exists n, ai_x i = ax_c a + IZR n * dx p)).
    { intros a y i Hin. unfold ax_list in Hin. apply in_map_iff in Hin. destruct Hin as (d & <- & _).
      unfold axitem; cbn [ai_w ai_x ai_g]. rewrite !one_over_dx_R by auto. split; [auto|split; [|eauto]].
      reflexivity. }
    assert (OFF : forall kk a i, nth_error axes kk = Some a -> In i (ax_list p a (vget x kk)) -> spline p = Deg1 ->
      forall n : Z, vget x kk <> ai_x i + IZR n * dx p).
    { intros kk a i Ha Hin E n Hx. destruct (AX _ _ _ Hin) as (_ & _ & m & Em). apply (Hoff E kk a Ha (m + n)%Z).
      rewrite plus_IZR. rewrite Hx, Em. ring. }
    destruct (axes_cases axes (go_dim _ _ GO)) as [(D & ax & ay & ->)|(D & ax & ay & az & ->)]; unfold items_of, items2, items3 in Hi.
    - apply in_flat_map in Hi. destruct Hi as (a & Ha & H). apply in_map_iff in H. destruct H as (b & <- & Hb).
      pose proof (OFF 0%nat ax a eq_refl Ha) as Oa. pose proof (OFF 1%nat ay b eq_refl Hb) as Ob.
      destruct (AX _ _ _ Ha) as (Wa & Ga & _). destruct (AX _ _ _ Hb) as (Wb & Gb & _).
      unfold item2; cbn [it_w it_g it_x]. rewrite weight2 by auto. autorewrite with geo. simpl Nat.eqb. cbv iota.
      split; [rewrite Wa, Wb; reflexivity|].
      set (X := vset (vset vzero 0 (ai_x a)) 1 (ai_x b)).
      assert (E : forall kk t, (kk < dim)%nat -> weight p X (vset x kk t) =
        N (spline p) (((if Nat.eqb 0 kk then t else vget x 0) - ai_x a) / dx p) *
        N (spline p) (((if Nat.eqb 1 kk then t else vget x 1) - ai_x b) / dx p)).
      { intros kk t Hkk. rewrite weight2 by auto. unfold X. autorewrite with geo. reflexivity. }
      numR. assert (K : k = 0%nat \/ k = 1%nat) by lia. destruct K as [-> | ->]; simpl Nat.eqb; cbv iota.
      + apply (Rderive_ext (fun t => 1 * N (spline p) ((t - ai_x a) / dx p) * ai_w b)); [intros t; rewrite E, Wb by auto; simpl; ring|].
        rewrite Ga. rewrite <- (Rmult_1_l (dNdu _ _ * _)). apply derive_mult_const, N_scaled_derive; auto.
      + apply (Rderive_ext (fun t => ai_w a * N (spline p) ((t - ai_x b) / dx p) * 1)); [intros t; rewrite E, Wa by auto; simpl; ring|].
        rewrite Gb. rewrite <- (Rmult_1_r (ai_w a * _)). apply derive_mult_const, N_scaled_derive; auto.
    - apply in_flat_map in Hi. destruct Hi as (a & Ha & H). apply in_flat_map in H. destruct H as (b & Hb & H).
      apply in_map_iff in H. destruct H as (c & <- & Hc).
      pose proof (OFF 0%nat ax a eq_refl Ha) as Oa. pose proof (OFF 1%nat ay b eq_refl Hb) as Ob. pose proof (OFF 2%nat az c eq_refl Hc) as Oc.
      destruct (AX _ _ _ Ha) as (Wa & Ga & _). destruct (AX _ _ _ Hb) as (Wb & Gb & _). destruct (AX _ _ _ Hc) as (Wc & Gc & _).
      assert (D2 : (2 < dim)%nat) by lia.
      unfold item3; cbn [it_w it_g it_x]. rewrite weight3 by auto. autorewrite with geo. simpl Nat.eqb. cbv iota.
      split; [rewrite Wa, Wb, Wc; reflexivity|].
      set (X := vset (vset (vset vzero 0 (ai_x a)) 1 (ai_x b)) 2 (ai_x c)).
      assert (E : forall kk t, (kk < dim)%nat -> weight p X (vset x kk t) =
        N (spline p) (((if Nat.eqb 0 kk then t else vget x 0) - ai_x a) / dx p) *
        N (spline p) (((if Nat.eqb 1 kk then t else vget x 1) - ai_x b) / dx p) *
        N (spline p) (((if Nat.eqb 2 kk then t else vget x 2) - ai_x c) / dx p)).
      { intros kk t Hkk. rewrite weight3 by auto. unfold X. autorewrite with geo. reflexivity. }
      numR. assert (K : k = 0%nat \/ k = 1%nat \/ k = 2%nat) by lia. destruct K as [-> | [-> | ->]]; simpl Nat.eqb; cbv iota.
      + apply (Rderive_ext (fun t => 1 * N (spline p) ((t - ai_x a) / dx p) * (ai_w b * ai_w c))); [intros t; rewrite E, Wb, Wc by auto; simpl; ring|].
        rewrite Ga, Rmult_assoc. rewrite <- (Rmult_1_l (dNdu _ _ * _)). apply derive_mult_const, N_scaled_derive; auto.
      + apply (Rderive_ext (fun t => ai_w a * N (spline p) ((t - ai_x b) / dx p) * ai_w c)); [intros t; rewrite E, Wa, Wc by auto; simpl; ring|].
        rewrite Gb. apply derive_mult_const, N_scaled_derive; auto.
      + apply (Rderive_ext (fun t => ai_w a * ai_w b * N (spline p) ((t - ai_x c) / dx p) * 1)); [intros t; rewrite E, Wa, Wb by auto; simpl; ring|].
        rewrite Gc. rewrite <- (Rmult_1_r (ai_w a * ai_w b * _)). apply derive_mult_const, N_scaled_derive; auto.
  Qed.

  Lemma in_grid_covered : forall axes x, in_grid p axes x <-> Covered p axes x.
  Proof.
    intros. split; intros H k a Ha; specialize (H k a Ha).
    - apply covered_iff; auto.
    - apply covered_iff in H; auto.
  Qed.
  Lemma off_lines_iff : forall axes x, off_grid_lines p axes x <-> off_lines p axes x.
  Proof. intros. split; intros H k a; [intros Ha n|intros n Ha]; apply (H k a); auto. Qed.
  Lemma linear_grad : forall axes x items (c : R) (a : TV) k, SL p axes x items ->
    (spline p = Deg1 -> off_lines p axes x) -> (k < dim)%nat ->
    Rsum (fun it => (c + vdot a (it_x it)) * vget (it_g it) k) items = vget a k.
  Proof.
    intros axes x items c a k S Hoff Hk.
    rewrite (Rsum_ext _ (fun it => (c + vdot a x) * vget (it_g it) k
      + sumd (fun l => vget a l * (vget (it_g it) k * (vget (it_x it) l - vget x l))))).
    2:{ intros it _. unfold vdot.
        rewrite (sumd_ext (fun l => vget a l * (vget (it_g it) k * (vget (it_x it) l - vget x l)))
          (fun l => vget (it_g it) k * (vget a l * vget (it_x it) l - vget a l * vget x l))) by (intros; ring).
        rewrite sumd_scal, sumd_minus. numR. ring. }
    rewrite Rsum_plus, Rsum_scal, (sl_g _ _ _ _ S Hoff k Hk), <- sumd_Rsum_swap.
    rewrite (sumd_ext _ (fun l => if Nat.eqb k l then vget a l else 0)).
    - rewrite sumd_pick by auto. ring.
    - intros l Hl. rewrite Rsum_scal, (sl_gx _ _ _ _ S Hoff k l Hk Hl). destruct (Nat.eqb k l); ring.
  Qed.
End Grad.
