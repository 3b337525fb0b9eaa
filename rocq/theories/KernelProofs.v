(** * KernelProofs: facts about the spline kernels over the reals. *)
From Coq Require Import Reals ZArith Lra Lia List Bool Psatz.
From Flocq Require Import Core.Raux.
From Coquelicot Require Import Coquelicot.
From Verif Require Import Num NumR NumF Tools.
Import ListNotations.
Local Open Scope R_scope.

(** The decimal literals of the cubic kernel denote the same doubles as 2/3 and 1/6. *)
Example cubic_literals :
  fofQ 6666666666666666666666666666666666666666666666666
       10000000000000000000000000000000000000000000000000 = fofQ 2 3 /\
  fofQ 1666666666666666666666666666666666666666666
       10000000000000000000000000000000000000000000 = fofQ 1 6.
Proof. vm_compute. split; reflexivity. Qed.

Lemma sgn_pos : forall x : R, 0 < x -> sgn x = 1%Z.
Proof. intros x H; unfold sgn; rewrite !nofZ_R; numR. rcase; lia. Qed.
Lemma sgn_neg : forall x : R, x < 0 -> sgn x = (-1)%Z.
Proof. intros x H; unfold sgn; rewrite !nofZ_R; numR. rcase; lia. Qed.
Lemma sgn_0 : sgn (0 : R) = 0%Z.
Proof. unfold sgn; rewrite !nofZ_R; numR. rcase; lia. Qed.

Ltac kunf :=
  unfold N, dNdu, d2Ndu2, N1, N2, N3, dN1, dN2, dN3, d2N1, d2N2, d2N3, cmax in *;
  rewrite ?nofZ_R in *; numR.

Ltac rabs1 :=
  match goal with
  | |- context [Rabs ?x] =>
      let H := fresh "Habs" in
      destruct (Rle_dec 0 x) as [H|H];
      [ rewrite (Rabs_pos_eq x H) | apply Rnot_le_lt in H; rewrite (Rabs_left x H) ]
  end.
Ltac rsgn1 :=
  match goal with
  | |- context [sgn ?x] =>
      first [ rewrite (sgn_pos x) by lra | rewrite (sgn_neg x) by lra
            | let H := fresh in assert (H : x = 0) by lra; rewrite H, sgn_0 ]
  end.
Ltac kern := kunf; repeat rabs1; rcase; repeat rsgn1; try lra; try nra; try field.

Lemma N_even : forall s (u : R), N s (- u) = N s u.
Proof. intros s u. destruct s; kunf; rewrite Rabs_Ropp; reflexivity. Qed.

Lemma N_nonneg : forall s (u : R), 0 <= N s u.
Proof.
  intros s u. destruct s; kern.
  all: repeat apply Rmult_le_pos; lra.
Qed.

Lemma N_support : forall s (u : R),
  match s with Deg1 => 1 | Deg2 => 3/2 | Deg3 => 2 end <= Rabs u -> N s u = 0 /\ dNdu s u = 0.
Proof. intros s u; destruct s; intros H; split; revert H; kern. Qed.

(** Sums over the four stencil offsets f+1, f, f-1, f-2. *)
Lemma N_pou : forall s f, 0 <= f < 1 ->
  N s (f + 1) + N s f + N s (f - 1) + N s (f - 2) = 1.
Proof. intros s f [H1 H2]. destruct s; kern. Qed.

Lemma N_first_moment : forall s f, 0 <= f < 1 ->
  N s (f + 1) * (- (f + 1)) + N s f * (- f) + N s (f - 1) * (- (f - 1)) + N s (f - 2) * (- (f - 2)) = 0.
Proof. intros s f [H1 H2]. destruct s; kern. Qed.

Definition kernel_second_moment (s : Spline) (f : R) : R :=
  match s with Deg1 => f * (1 - f) | Deg2 => 1/4 | Deg3 => 1/3 end.

Lemma N_second_moment : forall s f, 0 <= f < 1 ->
  N s (f + 1) * (f + 1)^2 + N s f * f^2 + N s (f - 1) * (f - 1)^2 + N s (f - 2) * (f - 2)^2
  = kernel_second_moment s f.
Proof.
  intros s f [H1 H2]. unfold kernel_second_moment.
  destruct (Req_EM_T f 0) as [->|Hf]; [destruct s; kern|].
  assert (0 < f) by lra. destruct s; kern.
Qed.

Lemma dN_sum0 : forall s f, 0 <= f < 1 -> (s = Deg1 -> 0 < f) ->
  dNdu s (f + 1) + dNdu s f + dNdu s (f - 1) + dNdu s (f - 2) = 0.
Proof.
  intros s f [H1 H2] H3.
  destruct (Req_EM_T f 0) as [->|Hf];
    [destruct s; [specialize (H3 eq_refl); lra|clear H3|clear H3]; kern|].
  assert (0 < f) by lra. clear H3. destruct s; kern.
Qed.

Lemma dN_linear : forall s f, 0 <= f < 1 -> (s = Deg1 -> 0 < f) ->
  dNdu s (f + 1) * (- (f + 1)) + dNdu s f * (- f) + dNdu s (f - 1) * (- (f - 1))
  + dNdu s (f - 2) * (- (f - 2)) = 1.
Proof.
  intros s f [H1 H2] H3.
  destruct (Req_EM_T f 0) as [->|Hf];
    [destruct s; [specialize (H3 eq_refl); lra|clear H3|clear H3]; kern|].
  assert (0 < f) by lra. clear H3. destruct s; kern.
Qed.

(** ** Derivatives. *)
Definition tp (t : R) : R := Rmax 0 t.

Lemma derive_by_square : forall (g : R -> R) (x d C : R), 0 <= C ->
  (forall h, Rabs h <= 1 -> Rabs (g (x + h) - g x - h * d) <= C * (h * h)) -> is_derive g x d.
Proof.
  intros g x d C HC H. apply is_derive_Reals. intros eps Heps.
  assert (HD : 0 < Rmin 1 (eps / (C + 1))).
  { apply Rmin_pos; [lra|]. apply Rdiv_lt_0_compat; lra. }
  exists (mkposreal _ HD). intros h Hh0 Hh. simpl in Hh.
  assert (Hh1 : Rabs h < 1) by (eapply Rlt_le_trans; [exact Hh|apply Rmin_l]).
  assert (Hh2 : Rabs h < eps / (C + 1)) by (eapply Rlt_le_trans; [exact Hh|apply Rmin_r]).
  specialize (H h (Rlt_le _ _ Hh1)).
  assert (Hpos : 0 < Rabs h) by (apply Rabs_pos_lt; auto).
  replace ((g (x + h) - g x) / h - d) with ((g (x + h) - g x - h * d) / h) by (field; auto).
  unfold Rdiv. rewrite Rabs_mult, Rabs_inv.
  apply Rle_lt_trans with (C * (h * h) * / Rabs h).
  { apply Rmult_le_compat_r; [left; apply Rinv_0_lt_compat; auto|exact H]. }
  replace (h * h) with (Rabs h * Rabs h) by (rewrite <- Rabs_mult; apply Rabs_pos_eq; nra).
  replace (C * (Rabs h * Rabs h) * / Rabs h) with (C * Rabs h) by (field; lra).
  apply Rle_lt_trans with (C * (eps / (C + 1))).
  - apply Rmult_le_compat_l; lra.
  - apply Rmult_lt_reg_r with (C + 1); [lra|].
    replace (C * (eps / (C + 1)) * (C + 1)) with (C * eps) by (field; lra). nra.
Qed.

Ltac rmax1 :=
  match goal with
  | |- context [Rmax ?a ?b] =>
      let H := fresh "Hmax" in
      destruct (Rle_dec a b) as [H|H];
      [ rewrite (Rmax_right a b H) | apply Rnot_le_lt in H; rewrite (Rmax_left a b (Rlt_le _ _ H)) ]
  end.

Lemma tp2_derive : forall a x, is_derive (fun u => (tp (u - a))^2) x (2 * tp (x - a)).
Proof.
  intros a x. apply (derive_by_square _ _ _ 1); [lra|]. intros h _.
  unfold tp. replace (x + h - a) with ((x - a) + h) by ring. set (t := x - a). clearbody t.
  apply Rabs_le. repeat rmax1; split; nra.
Qed.

Lemma tp3_derive : forall a x, is_derive (fun u => (tp (u - a))^3) x (3 * (tp (x - a))^2).
Proof.
  intros a x. apply (derive_by_square _ _ _ (3 * Rabs (x - a) + 1));
    [generalize (Rabs_pos (x - a)); lra|]. intros h Hh.
  unfold tp. replace (x + h - a) with ((x - a) + h) by ring. set (t := x - a). clearbody t.
  apply Rabs_le_inv in Hh.
  repeat rmax1.
  - rewrite (Rabs_pos_eq t) by lra.
    replace ((t + h) ^ 3 - t ^ 3 - h * (3 * t ^ 2)) with (h * h * (3 * t + h)) by ring.
    rewrite Rabs_mult. rewrite (Rabs_pos_eq (h*h)) by nra.
    assert (Rabs (3 * t + h) <= 3 * t + 1) by (apply Rabs_le; lra). nra.
  - rewrite (Rabs_left t) by lra.
    replace ((t + h) ^ 3 - 0 ^ 3 - h * (3 * 0 ^ 2)) with ((t + h)^3) by ring.
    rewrite Rabs_pos_eq by (apply pow_le; lra).
    assert (t + h <= h) by lra. assert (0 <= h) by lra.
    assert ((t+h)^3 <= h^3) by (apply pow_incr; lra). nra.
  - rewrite (Rabs_pos_eq t) by lra.
    replace (0 ^ 3 - t ^ 3 - h * (3 * t ^ 2)) with (t * t * (- t - 3 * h)) by ring.
    assert (Hk : 0 <= t * (- h) * (- h - t)) by (repeat apply Rmult_le_pos; lra).
    assert (Ht : 0 <= t * t * (- t - 3 * h)) by (repeat apply Rmult_le_pos; lra).
    rewrite Rabs_pos_eq by exact Ht. 
    assert (0 <= t * t * t) by (repeat apply Rmult_le_pos; lra). nra.
  - replace (0 ^ 3 - 0 ^ 3 - h * (3 * 0 ^ 2)) with 0 by ring. rewrite Rabs_R0.
    generalize (Rabs_pos t); intros. nra.
Qed.

Lemma tp_derive : forall a x, x <> a ->
  is_derive (fun u => tp (u - a)) x (if Rlt_dec a x then 1 else 0).
Proof.
  intros a x Hx. unfold tp. destruct (Rlt_dec a x) as [H|H].
  - apply is_derive_ext_loc with (fun u => u - a).
    + exists (mkposreal (x - a) ltac:(lra)). intros y Hy.
      unfold ball in Hy; simpl in Hy; unfold AbsRing_ball, abs, minus, plus, opp in Hy; simpl in Hy.
      apply Rabs_lt_between in Hy. rewrite Rmax_right; lra.
    + auto_derive; auto; lra.
  - apply is_derive_ext_loc with (fun u => 0).
    + exists (mkposreal (a - x) ltac:(lra)). intros y Hy.
      unfold ball in Hy; simpl in Hy; unfold AbsRing_ball, abs, minus, plus, opp in Hy; simpl in Hy.
      apply Rabs_lt_between in Hy. rewrite Rmax_left; lra.
    + auto_derive; auto; lra.
Qed.

Ltac kern_tp := kunf; unfold tp; repeat rabs1; rcase; repeat rsgn1; repeat rmax1; try lra; try nra; try field.

Lemma N2_tp : forall u : R, N2 u =
  ((tp (u - - (3/2)))^2 - 3 * (tp (u - - (1/2)))^2 + 3 * (tp (u - 1/2))^2 - (tp (u - 3/2))^2) / 2.
Proof. intros u. kern_tp. Qed.
Lemma dN2_tp : forall u : R, dN2 u =
  tp (u - - (3/2)) - 3 * tp (u - - (1/2)) + 3 * tp (u - 1/2) - tp (u - 3/2).
Proof. intros u. kern_tp. Qed.
Lemma N3_tp : forall u : R, N3 u =
  ((tp (u - - 2))^3 - 4 * (tp (u - - 1))^3 + 6 * (tp (u - 0))^3 - 4 * (tp (u - 1))^3 + (tp (u - 2))^3) / 6.
Proof. intros u. kern_tp. Qed.
Lemma dN3_tp : forall u : R, dN3 u =
  ((tp (u - - 2))^2 - 4 * (tp (u - - 1))^2 + 6 * (tp (u - 0))^2 - 4 * (tp (u - 1))^2 + (tp (u - 2))^2) / 2.
Proof. intros u. kern_tp. Qed.

Lemma derive_lin4 : forall (f1 f2 f3 f4 : R -> R) x d1 d2 d3 d4 c1 c2 c3 c4,
  is_derive f1 x d1 -> is_derive f2 x d2 -> is_derive f3 x d3 -> is_derive f4 x d4 ->
  is_derive (fun u => c1 * f1 u + c2 * f2 u + c3 * f3 u + c4 * f4 u) x
            (c1 * d1 + c2 * d2 + c3 * d3 + c4 * d4).
Proof.
  intros. repeat apply (is_derive_plus (K := R_AbsRing) (V := R_NormedModule)); 
    apply is_derive_scal; auto.
Qed.

Lemma N2_derive : forall u : R, is_derive (N2 : R -> R) u (dN2 u).
Proof.
  intros u.
  apply is_derive_ext with (fun u => 1/2 * (tp (u - - (3/2)))^2 + - (3/2) * (tp (u - - (1/2)))^2
     + 3/2 * (tp (u - 1/2))^2 + -(1/2) * (tp (u - 3/2))^2).
  { intros t. match goal with |- ?a = ?b => change (@eq R a b) end. rewrite N2_tp. field. }
  rewrite dN2_tp.
  replace (tp (u - - (3/2)) - 3 * tp (u - - (1/2)) + 3 * tp (u - 1/2) - tp (u - 3/2))
    with (1/2 * (2 * tp (u - - (3/2))) + - (3/2) * (2 * tp (u - - (1/2)))
     + 3/2 * (2 * tp (u - 1/2)) + -(1/2) * (2 * tp (u - 3/2))) by field.
  apply derive_lin4; apply tp2_derive.
Qed.

Lemma N3_derive : forall u : R, is_derive (N3 : R -> R) u (dN3 u).
Proof.
  intros u.
  apply is_derive_ext with (fun u => (1/6 * (tp (u - - 2))^3 + - (4/6) * (tp (u - - 1))^3
     + 1 * (tp (u - 0))^3 + -(4/6) * (tp (u - 1))^3) + 1/6 * (tp (u - 2))^3).
  { intros t. match goal with |- ?a = ?b => change (@eq R a b) end. rewrite N3_tp. field. }
  rewrite dN3_tp.
  replace (((tp (u - - 2))^2 - 4 * (tp (u - - 1))^2 + 6 * (tp (u - 0))^2 - 4 * (tp (u - 1))^2 + (tp (u - 2))^2) / 2)
    with ((1/6 * (3 * (tp (u - - 2))^2) + - (4/6) * (3 * (tp (u - - 1))^2)
     + 1 * (3 * (tp (u - 0))^2) + -(4/6) * (3 * (tp (u - 1))^2)) + 1/6 * (3 * (tp (u - 2))^2)) by field.
  apply (is_derive_plus (K := R_AbsRing) (V := R_NormedModule)).
  - apply derive_lin4; apply tp3_derive.
  - apply is_derive_scal. apply tp3_derive.
Qed.

Lemma dN3_derive : forall u : R, is_derive (dN3 : R -> R) u (d2N3 u).
Proof.
  intros u.
  apply is_derive_ext with (fun u => (1/2 * (tp (u - - 2))^2 + - 2 * (tp (u - - 1))^2
     + 3 * (tp (u - 0))^2 + -2 * (tp (u - 1))^2) + 1/2 * (tp (u - 2))^2).
  { intros t. match goal with |- ?a = ?b => change (@eq R a b) end. rewrite dN3_tp. field. }
  replace (d2N3 u) with ((1/2 * (2 * tp (u - - 2)) + - 2 * (2 * tp (u - - 1))
     + 3 * (2 * tp (u - 0)) + -2 * (2 * tp (u - 1))) + 1/2 * (2 * tp (u - 2))) by kern_tp.
  apply (is_derive_plus (K := R_AbsRing) (V := R_NormedModule)).
  - apply derive_lin4; apply tp2_derive.
  - apply is_derive_scal. apply tp2_derive.
Qed.

Lemma dN2_derive : forall u : R, Rabs u <> 1/2 -> Rabs u <> 3/2 ->
  is_derive (dN2 : R -> R) u (d2N2 u).
Proof.
  intros u H1 H2.
  assert (Hk : u <> - (3/2) /\ u <> - (1/2) /\ u <> 1/2 /\ u <> 3/2).
  { repeat split; intro E; subst; [apply H2|apply H1|apply H1|apply H2];
      rewrite ?Rabs_Ropp; rewrite Rabs_pos_eq; lra. }
  destruct Hk as (K1 & K2 & K3 & K4).
  apply is_derive_ext with (fun u => 1 * tp (u - - (3/2)) + - 3 * tp (u - - (1/2))
     + 3 * tp (u - 1/2) + -1 * tp (u - 3/2)).
  { intros t. match goal with |- ?a = ?b => change (@eq R a b) end. rewrite dN2_tp. ring. }
  replace (d2N2 u) with (1 * (if Rlt_dec (- (3/2)) u then 1 else 0) + - 3 * (if Rlt_dec (- (1/2)) u then 1 else 0)
     + 3 * (if Rlt_dec (1/2) u then 1 else 0) + - 1 * (if Rlt_dec (3/2) u then 1 else 0)).
  2:{ kunf. repeat rabs1; rcase; repeat destruct (Rlt_dec _ _); lra. }
  apply derive_lin4; apply tp_derive; auto.
Qed.

Lemma N1_derive : forall u : R, u <> 0 -> Rabs u <> 1 -> is_derive (N1 : R -> R) u (dN1 u).
Proof.
  intros u H0 H1.
  assert (Hk : u <> -1 /\ u <> 1).
  { split; intro E; subst; apply H1; [rewrite Rabs_left; lra|rewrite Rabs_pos_eq; lra]. }
  destruct Hk as (K1 & K2).
  apply is_derive_ext with (fun u => 1 * tp (u - - 1) + - 2 * tp (u - 0) + 1 * tp (u - 1) + 0 * tp (u - 1)).
  { intros t. kern_tp. }
  replace (dN1 u) with (1 * (if Rlt_dec (-1) u then 1 else 0) + - 2 * (if Rlt_dec 0 u then 1 else 0)
     + 1 * (if Rlt_dec 1 u then 1 else 0) + 0 * (if Rlt_dec 1 u then 1 else 0)).
  2:{ kunf. repeat rabs1; rcase; repeat destruct (Rlt_dec _ _); lra. }
  apply derive_lin4; apply tp_derive; auto.
Qed.
