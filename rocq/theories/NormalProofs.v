(** * NormalProofs: normals of the analytic terrains. *)
From Coq Require Import Reals ZArith Lra Lia List Bool.
From Coquelicot Require Import Coquelicot.
From Verif Require Import Num NumR Tools Lin Types Objects SpecObj Spec LinProofs ResProofs ObjectProofs.
Import ListNotations.
Local Open Scope R_scope.

Lemma cosh_pos : forall x, 0 < cosh x.
Proof. intros. unfold cosh. pose proof (exp_pos x). pose proof (exp_pos (- x)). lra. Qed.
Lemma der_tanh : forall x, is_derive tanh x (/ (cosh x * cosh x)).
Proof.
  intros x. unfold tanh, sinh, cosh. pose proof (exp_pos x) as E. assert (X : exp (- x) = / exp x) by apply exp_Ropp.
  pose proof (exp_pos (- x)) as E'.
  auto_derive; [apply Rgt_not_eq; lra|]. rewrite X. field. split; [lra|]. rewrite X in E'. nra.
Qed.
Lemma der_invcosh : forall x, is_derive (fun t => / cosh t) x (- tanh x / cosh x).
Proof.
  intros x. unfold tanh, sinh, cosh. pose proof (exp_pos x) as E.
  pose proof (exp_pos (- x)) as E'.
  auto_derive; [apply Rgt_not_eq; lra|]. field; repeat split; lra.
Qed.
Lemma tanh_gt_m1 : forall x, 0 < tanh x + 1.
Proof.
  intros. unfold tanh. pose proof (cosh_pos x). replace (sinh x / cosh x + 1) with ((sinh x + cosh x) / cosh x) by (field; lra).
  apply Rmult_lt_0_compat; [|now apply Rinv_0_lt_compat]. unfold sinh, cosh. pose proof (exp_pos x). lra.
Qed.
Lemma cos_atan2 : forall y x, x * x + y * y <> 0 -> cos (Ratan2 y x) = x / sqrt (x * x + y * y) /\ sin (Ratan2 y x) = y / sqrt (x * x + y * y).
Proof.
  intros y x H. unfold Ratan2.
  assert (Q : forall x, x <> 0 -> sqrt (x * x + y * y) = Rabs x * sqrt (1 + (y / x)²)).
  { intros w Hw. replace (w * w + y * y) with (Rsqr w * (1 + (y / w)²)) by (unfold Rsqr; field; auto).
    rewrite sqrt_mult, sqrt_Rsqr_abs; auto; [apply Rle_0_sqr|]. pose proof (Rle_0_sqr (y / w)). lra. }
  assert (P : 0 < sqrt (1 + (y / x)²)) by (apply sqrt_lt_R0; pose proof (Rle_0_sqr (y / x)); lra).
  destruct (Rlt_dec 0 x).
  - rewrite cos_atan, sin_atan, Q, Rabs_pos_eq by lra. split; field; lra.
  - destruct (Rlt_dec x 0).
    + destruct (Rle_dec 0 y).
      * rewrite neg_cos, neg_sin, cos_atan, sin_atan, Q, Rabs_left by lra. split; field; lra.
      * replace (atan (y / x) - PI) with (- (PI - atan (y / x))) by ring.
        rewrite cos_neg, sin_neg, sin_PI_x, Rtrigo_facts.cos_pi_minus, cos_atan, sin_atan, Q, Rabs_left by lra. split; field; lra.
    + assert (x = 0) by lra. subst x. rewrite Rmult_0_l, Rplus_0_l in *. 
      replace (sqrt (y * y)) with (Rabs y) by (symmetry; apply sqrt_Rsqr_abs).
      destruct (Rlt_dec 0 y).
      * rewrite cos_PI2, sin_PI2, Rabs_pos_eq by lra. split; field; lra.
      * destruct (Rlt_dec y 0); [|exfalso; apply H; assert (y = 0) by lra; subst; lra].
        replace (- PI / 2) with (- (PI / 2)) by field. rewrite cos_neg, sin_neg, cos_PI2, sin_PI2, Rabs_left by lra. split; field; lra.
Qed.

Section Normals.
  Context {G : Geo R} {GL : GeoLaws G}.
  Lemma normalized_unit : forall g, 0 < vsqnorm g -> vnormalized g = vdivs g (vnorm g) /\ vdot (vnormalized g) (vnormalized g) = 1 /\ 0 < vnorm g.
  Proof.
    intros g H. assert (P : 0 < vnorm g) by (apply sqrt_lt_R0; auto).
    assert (E : vnormalized g = vdivs g (vnorm g)) by (apply vnormalized_pos; auto).
    split; auto. split; auto. rewrite E, vdot_divs_l, vdot_divs_r. fold (vsqnorm g). rewrite <- (vnorm_sq g). field. lra.
  Qed.
  Lemma vec01_sq : forall a b, vsqnorm (vec01 a b) = a * a + b * b.
  Proof.
    intros. unfold vsqnorm, vdot, vec01. destruct gl_dim as [D|D]; unfold sumd; rewrite D; cbn [pred sumto];
      rewrite !vget_set, !vget_zero by (rewrite D; lia); cbn [Nat.eqb]; numR; lra.
  Qed.
  (** What has to hold of a gradient g of a terrain function at X. *)
  Definition good_normal (s : Shape R) (X g : TV) : Prop :=
    gradient_at (level s) X g /\ 0 < vsqnorm g /\ normal s X = Ok (vnormalized g).
End Normals.

(** Derivative of f with affine inner function. *)
Lemma der_scale : forall (f : R -> R) a b x l, is_derive f (a * (x - b)) l -> is_derive (fun t => f (a * (t - b))) x (a * l).
Proof.
  intros f a b x l H. apply (is_derive_comp f (fun t => a * (t - b)) x l a H). auto_derive; auto. ring.
Qed.
Lemma der_bump : forall x, is_derive (fun t => 475/10000 / cosh (25 * (t - 43/100))) x
  (-25 * (475/10000) * tanh (25 * (x - 43/100)) / cosh (25 * (x - 43/100))).
Proof.
  intros x. set (u := 25 * (x - 43/100)).
  replace (-25 * (475/10000) * tanh u / cosh u) with (475/10000 * (25 * (- tanh u / cosh u))) by (field; pose proof (cosh_pos u); lra).
  apply (is_derive_ext (fun t => scal (475/10000) ((fun w => / cosh w) (25 * (t - 43/100))))); [reflexivity|].
  apply (is_derive_scal (fun t => / cosh (25 * (t - 43/100))) x (475/10000)). apply (der_scale (fun w => / cosh w)). apply der_invcosh.
Qed.
Lemma der_ramp : forall x, is_derive (fun t => 1/10 * tanh (-100 * t)) x (1/10 * (-100) / (cosh (-100 * x) * cosh (-100 * x))).
Proof.
  intros x. pose proof (cosh_pos (-100 * x)).
  replace (1/10 * (-100) / (cosh (-100 * x) * cosh (-100 * x))) with (1/10 * (-100 * / (cosh (-100 * x) * cosh (-100 * x)))) by (field; lra).
  apply (is_derive_scal (fun t => tanh (-100 * t)) x (1/10)).
  apply (is_derive_ext (fun t => tanh (-100 * (t - 0)))); [intros; now rewrite Rminus_0_r|].
  apply der_scale. rewrite Rminus_0_r. apply der_tanh.
Qed.
Lemma der_sqrt_sum : forall x c, 0 < x ^ 2 + c -> is_derive (fun t => sqrt (t ^ 2 + c)) x (x / sqrt (x ^ 2 + c)).
Proof.
  intros x c H. auto_derive; [repeat split; auto|]. assert (0 < sqrt (x ^ 2 + c)) by now apply sqrt_lt_R0.
  simpl in *. field. simpl. lra.
Qed.
Lemma der_minus_c : forall (f : R -> R) x l c, is_derive f x l -> is_derive (fun t => c - f t) x (- l).
Proof. intros. evar_last. apply @is_derive_minus; [apply is_derive_const|eauto]. unfold minus, plus, opp, zero; simpl; lra. Qed.
Lemma der_plus_c : forall (f : R -> R) x l c, is_derive f x l -> is_derive (fun t => f t - c) x l.
Proof. intros. evar_last. apply @is_derive_minus; [eauto|apply is_derive_const]. unfold minus, plus, opp, zero; simpl; lra. Qed.

Ltac z01 := try replace (0 / 1) with 0 by lra.
Ltac kcase k Hk := destruct k as [|[|[|k]]]; cbn in Hk; try lia.
Ltac dcl := apply is_derive_Reals; cbn;
  first [ auto_derive; [repeat split; auto|]; cbn; lra | idtac ].

Lemma terrain_normal : forall (G : Geo R), two_or_three G -> forall s X, analytic s ->
  (match s with Silo _ => vget X 0 * vget X 0 + vget X 2 * vget X 2 <> 0 | Ground _ => dim = 2%nat | _ => True end) ->
  exists g, gradient_at (level s) X g /\ 0 < vsqnorm g /\ normal s X = Ok (vnormalized g).
Proof.
  intros G HG s X An Cond. pose proof (geolaws G HG) as GL.
  assert (D1 : forall c y, derivable_pt_lim (fun t => t - c) y 1) by (intros; apply is_derive_Reals; auto_derive; auto; ring).
  assert (D0 : forall c y, derivable_pt_lim (fun _ => c) y 0) by (intros; apply derivable_pt_lim_const).
  destruct s as [yg| | | |h|cut|]; cbn [analytic] in An; try contradiction.
  - (* ground *) exists (vec01 0 1). split; [|split].
    + destruct HG as [->| ->]; [|discriminate]. intros k Hk. kcase k Hk; cbn; rewrite ?nofZ_R; z01; auto.
    + rewrite vec01_sq. lra.
    + unfold normal. rewrite Cond. rewrite !nofZ_R. f_equal.
      destruct (normalized_unit (vec01 0 1)) as (E & _); [rewrite vec01_sq; lra|]. rewrite E.
      replace (vnorm (vec01 0 1)) with 1; [vx; numR; lra|]. unfold vnorm. rewrite vec01_sq. numR. replace (0 * 0 + 1 * 1) with 1 by lra. symmetry; apply sqrt_1.
  - (* curve *) exists (vec01 (-2 * vget X 0) 1). split; [|split].
    + intros k Hk. destruct HG as [->| ->]; kcase k Hk; cbn; rewrite ?nofZ_R; z01; auto; apply is_derive_Reals; auto_derive; auto; cbn; numR; lra.
    + rewrite vec01_sq. pose proof (Rle_0_sqr (-2 * vget X 0)). unfold Rsqr in *. lra.
    + unfold normal. cbv zeta. rewrite !nofZ_R. numR. reflexivity.
  - (* bump *) exists (vec01 (- (-25 * (475/10000) * tanh (25 * (vget X 0 - 43/100)) / cosh (25 * (vget X 0 - 43/100)))) 1). split; [|split].
    + intros k Hk. destruct HG as [->| ->]; kcase k Hk; cbn; rewrite ?nofZ_R; z01; auto; apply is_derive_Reals; apply der_minus_c; apply der_bump.
    + rewrite vec01_sq. match goal with |- 0 < ?a * ?a + _ => pose proof (Rle_0_sqr a) as Q; unfold Rsqr in Q end. lra.
    + unfold normal. cbv zeta. rewrite !nofZ_R. numR. reflexivity.
  - (* ramp *) exists (vec01 (- (1/10 * (-100) / (cosh (-100 * vget X 0) * cosh (-100 * vget X 0)))) 1). split; [|split].
    + intros k Hk. destruct HG as [->| ->]; kcase k Hk; cbn; rewrite ?nofZ_R; z01; auto; apply is_derive_Reals; apply der_minus_c; apply der_ramp.
    + rewrite vec01_sq. match goal with |- 0 < ?a * ?a + _ => pose proof (Rle_0_sqr a) as Q; unfold Rsqr in Q end. lra.
    + unfold normal. cbv zeta. rewrite !nofZ_R. numR. reflexivity.
  - (* gate *) exists (vscale (vec01 (- (2 * 100 * vget X 0)) 1) (-1)). split; [|split].
    + intros k Hk. destruct HG as [->| ->]; kcase k Hk; cbn; rewrite ?nofZ_R; numR; z01; auto; 
        try (apply is_derive_Reals; auto_derive; auto; cbn; numR; lra); replace (0 * -1) with 0 by ring; auto.
    + assert (E : vsqnorm (vscale (vec01 (- (2 * 100 * vget X 0)) 1) (-1)) = vsqnorm (vec01 (- (2 * 100 * vget X 0)) 1)).
      { unfold vsqnorm. rewrite vdot_scale_l, vdot_scale_r. ring. }
      rewrite E, vec01_sq. pose proof (Rle_0_sqr (-(2 * 100 * vget X 0))). unfold Rsqr in *. lra.
    + unfold normal. cbv zeta. rewrite !nofZ_R. numR. reflexivity.
  - (* silo *) destruct HG as [->| ->]; [discriminate|]. destruct X as [x y z]. cbn in Cond.
    destruct (cos_atan2 z x Cond) as (Ec & Es). set (r := sqrt (x * x + z * z)) in *.
    pose proof (Rle_0_sqr x) as Qx. pose proof (Rle_0_sqr z) as Qz. unfold Rsqr in *.
    assert (Pr : 0 < r) by (apply sqrt_lt_R0; lra).
    exists (mkV3 (- (x / r)) (/ (cosh y * cosh y)) (- (z / r))). pose proof (cosh_pos y) as Cy. split; [|split].
    + intros k Hk. kcase k Hk; apply is_derive_Reals; cbn [vget Geo3 v3get v3_0 v3_1 v3_2 level].
      * apply (is_derive_ext (fun t => (1 + tanh y) - sqrt (t ^ 2 + z ^ 2))); [reflexivity|]. apply der_minus_c.
        replace (x / r) with (x / sqrt (x ^ 2 + z ^ 2)) by (unfold r; do 2 f_equal; ring). apply der_sqrt_sum. simpl. lra.
      * apply (is_derive_ext (fun t => (1 + tanh t) - sqrt (x ^ 2 + z ^ 2))); [reflexivity|]. apply der_plus_c.
        evar_last. apply @is_derive_plus; [apply is_derive_const|apply der_tanh]. unfold plus, zero; simpl; lra.
      * apply (is_derive_ext (fun t => (1 + tanh y) - sqrt (t ^ 2 + x ^ 2))); [intros t; cbn [vset vtab Geo3 Nat.eqb vget v3get v3_0 v3_1 v3_2]; do 2 f_equal; ring|]. apply der_minus_c.
        replace (z / r) with (z / sqrt (z ^ 2 + x ^ 2)) by (unfold r; do 2 f_equal; ring). apply der_sqrt_sum. simpl. lra.
    + cbn. assert (0 < / (cosh y * cosh y)) by (apply Rinv_0_lt_compat; nra).
      pose proof (Rle_0_sqr (x / r)). pose proof (Rle_0_sqr (z / r)). unfold Rsqr in *. numR. nra.
    + unfold normal. cbn [dim Geo3 vget v3get v3_0 v3_1 v3_2]. rewrite !nofZ_R. numR. rewrite Ec, Es. do 2 f_equal. cbn. f_equal.
      numR. field. lra.
Qed.

(** Inside is where the level set is not positive (negative for the open terrains). *)
Lemma terrain_inside : forall (G : Geo R), two_or_three G -> forall s X, analytic s ->
  exists b, inside s X = Ok b /\
  (b = true <-> match s with
                | Ground _ | Curve => level s X <= 0
                | Silo cut => cut <= vget X 1 /\ level s X <= 0
                | _ => level s X < 0 end).
Proof.
  intros G HG s X An. destruct s as [yg| | | |h|cut|]; cbn [analytic] in An; try contradiction; unfold inside, level; cbv zeta;
    try (eexists; split; [reflexivity|]); rewrite ?nofZ_R; numR.
  - rewrite negb_true_iff, Rltb_false. split; intros; lra.
  - rewrite negb_true_iff, Rltb_false. simpl. split; intros; lra.
  - rewrite Rltb_true. unfold bump_y. rewrite !nofZ_R. numR. split; intros; lra.
  - rewrite Rltb_true. unfold ramp_y. rewrite !nofZ_R. numR. split; intros; lra.
  - rewrite Rltb_true. unfold gate_y. rewrite !nofZ_R. numR. simpl. split; intros; lra.
  - rewrite An. set (x := vget X 0). set (y := vget X 1). set (z := vget X 2). rewrite ?nofZ_R. numR.
    destruct (Rltb_spec y cut).
    + eexists; split; [reflexivity|]. split; [discriminate|intros; lra].
    + eexists; split; [reflexivity|]. rewrite negb_true_iff, Rltb_false. pose proof (tanh_gt_m1 y) as T.
      replace (x ^ 2 + z ^ 2) with (x * x + z * z) by ring.
      assert (0 <= x * x + z * z) by nra.
      pose proof (sqrt_pos (x * x + z * z)). pose proof (sqrt_sqrt (x * x + z * z) H) as S. split.
      * intros Q. split; [lra|]. assert (tanh y + 1 <= sqrt (x * x + z * z)); [|lra].
        apply Rsqr_incr_0_var; auto. unfold Rsqr. rewrite S. lra.
      * intros (_ & Q). rewrite <- S. assert (tanh y + 1 <= sqrt (x * x + z * z)) by lra. nra.
Qed.
Lemma silo_inside_off_axis : forall (G : Geo R), two_or_three G -> forall cut X, inside (Silo cut) X = Ok true ->
  vget X 0 * vget X 0 + vget X 2 * vget X 2 <> 0.
Proof.
  intros G HG cut X H. unfold inside in H. cbv zeta in H.
  destruct (dim) as [|[|[|[|?]]]]; try discriminate. rewrite ?nofZ_R in H. numR. destruct (Rltb_spec (vget X 1) cut); [discriminate|].
  injection H as H. rewrite negb_true_iff, Rltb_false in H. pose proof (tanh_gt_m1 (vget X 1)). nra.
Qed.
