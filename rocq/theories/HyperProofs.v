(** * HyperProofs: derivative of the elastic energies (C73). *)
From Coq Require Import Reals ZArith Lra Lia List Bool.
From Coquelicot Require Import Coquelicot.
From Verif Require Import Num NumR Tools Lin Types Transfer Plastic Piola Spec SpecMech SpecPlastic SpecMpm SpecHyper
  LinProofs PlasticProofs MaterialStep StressProofs.
Import ListNotations.
Local Open Scope R_scope.

(** ** Scalars *)
Lemma ln_le_sub : forall z, 0 < z -> ln z <= z - 1.
Proof. intros z H. replace (z - 1) with (ln (exp (z - 1))) by apply ln_exp. apply Rcomplements.ln_le; auto. pose proof (exp_ineq1_le (z - 1)). lra. Qed.
Lemma ln_ge_sub : forall z, 0 < z -> 1 - / z <= ln z.
Proof. intros z H. assert (0 < / z) by now apply Rinv_0_lt_compat. pose proof (ln_le_sub (/ z) H0). rewrite ln_Rinv in H1 by auto. lra. Qed.
Lemma ln_sq_taylor : forall m M, 0 < m -> m <= M -> exists C, 0 <= C /\ forall x y, m <= x <= M -> m <= y <= M ->
  Rabs (/4 * (ln x)² - /4 * (ln y)² - (x - y) * (ln y / (2 * y))) <= C * (x - y)².
Proof.
  intros m M Hm HM. set (L := Rabs (ln m) + Rabs (ln M)). assert (Hm2 : 0 < / (m * m)) by (apply Rinv_0_lt_compat; nra).
  assert (HL : 0 <= L) by (unfold L; pose proof (Rabs_pos (ln m)); pose proof (Rabs_pos (ln M)); lra).
  exists (/2 * L * / (m * m) + /4 * / (m * m)). split; [nra|]. intros x y Hx Hy.
  assert (Ly : Rabs (ln y) <= L). { assert (ln m <= ln y) by (apply Rcomplements.ln_le; lra). assert (ln y <= ln M) by (apply Rcomplements.ln_le; lra). unfold L. unfold Rabs. repeat destruct Rcase_abs; lra. }
  set (r := ln x - ln y). set (e := (x - y) / y - r).
  assert (Er : r = ln (x / y)) by (unfold r; rewrite ln_div by lra; ring).
  assert (He : 0 <= e <= (x - y)² * / (m * m)).
  { assert (Z : 0 < x / y) by (apply Rdiv_lt_0_compat; lra). pose proof (ln_le_sub _ Z). pose proof (ln_ge_sub _ Z). rewrite <- Er in *.
    replace (x / y - 1) with ((x - y) / y) in H by (field; lra). replace (1 - / (x / y)) with ((x - y) / x) in H0 by (field; lra).
    split; unfold e; [lra|]. apply Rle_trans with ((x - y) / y - (x - y) / x); [lra|]. replace ((x - y) / y - (x - y) / x) with ((x - y)² * / (x * y)) by (unfold Rsqr; field; lra).
    apply Rmult_le_compat_l; [apply Rle_0_sqr|]. apply Rinv_le_contravar; nra. }
  assert (Hr : r² <= (x - y)² * / (m * m)).
  { assert (Z : 0 < x / y) by (apply Rdiv_lt_0_compat; lra). pose proof (ln_le_sub _ Z) as A1. pose proof (ln_ge_sub _ Z) as A2. rewrite <- Er in *.
    replace (x / y - 1) with ((x - y) / y) in A1 by (field; lra). replace (1 - / (x / y)) with ((x - y) / x) in A2 by (field; lra).
    assert (B : forall z, m <= z -> Rabs ((x - y) / z) <= Rabs (x - y) * / m).
    { intros z Hz. unfold Rdiv. rewrite Rabs_mult. apply Rmult_le_compat_l; [apply Rabs_pos|]. rewrite Rabs_right by (apply Rle_ge, Rlt_le, Rinv_0_lt_compat; lra). apply Rinv_le_contravar; lra. }
    pose proof (B y ltac:(lra)) as B1. pose proof (B x ltac:(lra)) as B2. apply Rabs_le_between in B1, B2.
    replace ((x - y)² * / (m * m)) with ((Rabs (x - y) * / m)²) by (rewrite Rsqr_mult, <- Rsqr_abs; unfold Rsqr; field; lra).
    apply Rsqr_le_abs_1. rewrite (Rabs_right (Rabs (x - y) * / m)). 2:{ apply Rle_ge, Rmult_le_pos; [apply Rabs_pos|apply Rlt_le, Rinv_0_lt_compat; lra]. } apply Rabs_le. lra. }
  replace (/ 4 * (ln x)² - / 4 * (ln y)² - (x - y) * (ln y / (2 * y))) with (- (/2 * ln y * e) + /4 * r²) by (unfold e, r, Rsqr; field; lra).
  eapply Rle_trans; [apply Rabs_triang|]. rewrite Rabs_Ropp, !Rabs_mult, (Rabs_right (/2)), (Rabs_right (/4)) by lra. rewrite (Rabs_right e) by lra. rewrite (Rabs_right (r²)) by (apply Rle_ge, Rle_0_sqr).
  rewrite Rmult_plus_distr_r. apply Rplus_le_compat; [|nra].
  replace (/ 2 * L * / (m * m) * (x - y)²) with (/2 * (L * ((x - y)² * / (m * m)))) by ring. rewrite Rmult_assoc. apply Rmult_le_compat_l; [lra|]. apply Rmult_le_compat; try lra. apply Rabs_pos.
Qed.
Lemma quad_derive : forall (f : R -> R) l d C, 0 < d -> (forall t, Rabs t < d -> Rabs (f t - f 0 - t * l) <= C * t²) -> is_derive f 0 l.
Proof.
  intros f l d C Hd H. apply is_derive_Reals. intros eps He. assert (HC : 0 < Rabs C + 1) by (pose proof (Rabs_pos C); lra).
  assert (D : 0 < Rmin d (eps / (Rabs C + 1))) by (apply Rmin_pos; [auto|now apply Rdiv_lt_0_compat]). exists (mkposreal _ D). intros h Hh Lh. cbn [pos] in Lh.
  rewrite Rplus_0_l. assert (L1 : Rabs h < d) by (eapply Rlt_le_trans; [exact Lh|apply Rmin_l]). assert (L2 : Rabs h < eps / (Rabs C + 1)) by (eapply Rlt_le_trans; [exact Lh|apply Rmin_r]).
  specialize (H h L1). replace ((f h - f 0) / h - l) with ((f h - f 0 - h * l) / h) by (field; auto). unfold Rdiv. rewrite Rabs_mult, Rabs_inv.
  assert (Ph : 0 < Rabs h) by now apply Rabs_pos_lt. apply Rle_lt_trans with (C * h² * / Rabs h); [apply Rmult_le_compat_r; [apply Rlt_le, Rinv_0_lt_compat; lra|exact H]|].
  rewrite Rsqr_abs. unfold Rsqr. replace (C * (Rabs h * Rabs h) * / Rabs h) with (C * Rabs h) by (field; lra).
  apply Rle_lt_trans with ((Rabs C + 1) * Rabs h); [apply Rmult_le_compat_r; [lra|]; pose proof (Rle_abs C); lra|].
  apply Rlt_le_trans with ((Rabs C + 1) * (eps / (Rabs C + 1))); [now apply Rmult_lt_compat_l|]. apply Req_le. field. lra.
Qed.

(** ** Traces of functions of symmetric matrices *)
Section Klein.
  Context {G : Geo R} {GL : GeoLaws G}.
  Variables (U W : TM) (a b : TV).
  Hypothesis HU : orthogonal U.
  Hypothesis HW : orthogonal W.
  Definition ov (i j : nat) : R := (mget (mmul (mtr U) W) i j)².
  Lemma ov_rows : forall i, (i < dim)%nat -> sumd (fun j => ov i j) = 1.
  Proof.
    intros i Hi. destruct (orth_mul _ _ (orth_tr _ HU) HW) as (_ & Q). apply (f_equal (fun m => mget m i i)) in Q.
    rewrite mget_ident, Nat.eqb_refl, mget_mul in Q by auto. rewrite <- Q. apply sumd_ext. intros j Hj. now rewrite (mget_tr (mmul (mtr U) W)) by auto.
  Qed.
  Lemma ov_cols : forall j, (j < dim)%nat -> sumd (fun i => ov i j) = 1.
  Proof.
    intros j Hj. destruct (orth_mul _ _ (orth_tr _ HU) HW) as (Q & _). apply (f_equal (fun m => mget m j j)) in Q.
    rewrite mget_ident, Nat.eqb_refl, mget_mul in Q by auto. rewrite <- Q. apply sumd_ext. intros i Hi. now rewrite (mget_tr (mmul (mtr U) W)) by auto.
  Qed.
  Lemma sum_rows : forall f : nat -> R, sumd f = sumd (fun i => sumd (fun j => ov i j * f i)).
  Proof. intros f. apply sumd_ext. intros i Hi. rewrite (sumd_scalr (f i) (fun j => ov i j)), ov_rows by auto. ring. Qed.
  Lemma sum_cols : forall f : nat -> R, sumd f = sumd (fun i => sumd (fun j => ov i j * f j)).
  Proof. intros f. rewrite sumd_swap. apply sumd_ext. intros j Hj. rewrite (sumd_scalr (f j) (fun i => ov i j)), ov_cols by auto. ring. Qed.
  Lemma trace_conj : forall (V : TM) (d : TV), orthogonal V -> mtrace (conj V (mdiag d)) = sumd (fun k => vget d k).
  Proof. intros V d (V1 & V2). unfold conj. rewrite mtrace_mul_comm, <- mmul_assoc, V1, mmul_id_l. apply mtrace_diag. Qed.
  Lemma trace_cross : forall c d, mtrace (mmul (conj U (mdiag c)) (conj W (mdiag d))) = sumd (fun i => sumd (fun j => ov i j * (vget c i * vget d j))).
  Proof.
    intros c d.
    assert (E : forall Y, mtrace (mmul (conj U (mdiag c)) Y) = mtrace (mmul (mdiag c) (mmul (mmul (mtr U) Y) U))).
    { intros Y. unfold conj. rewrite (mmul_assoc (mmul U (mdiag c))), (mmul_assoc U), mtrace_mul_comm, mmul_assoc. reflexivity. }
    rewrite E. unfold conj.
    replace (mmul (mmul (mtr U) (mmul (mmul W (mdiag d)) (mtr W))) U) with (mmul (mmul (mmul (mtr U) W) (mdiag d)) (mtr (mmul (mtr U) W))) by (rewrite mtr_mul, mtr_tr, !mmul_assoc; reflexivity).
    set (Q := mmul (mtr U) W). unfold mtrace. apply sumd_ext. intros i Hi. rewrite mget_diag_mul, mget_mul by auto. rewrite <- sumd_scal. apply sumd_ext. intros j Hj.
    rewrite mget_mul_diag, mget_tr by auto. unfold ov. fold Q. unfold Rsqr. ring.
  Qed.
End Klein.
Section Klein2.
  Context {G : Geo R} {GL : GeoLaws G}.
  Lemma trace_self : forall (W : TM) (c d : TV), orthogonal W -> mtrace (mmul (conj W (mdiag c)) (conj W (mdiag d))) = sumd (fun k => vget c k * vget d k).
  Proof.
    intros W c d HW. rewrite conj_mul by auto. replace (mmul (mdiag c) (mdiag d)) with (mdiag (vtab (fun k => vget c k * vget d k))).
    2:{ apply mext. intros i j Hi Hj. rewrite mget_mul_diag, !mget_diag, vget_tab by auto. destruct (Nat.eqb_spec i j); [subst; ring|ring]. }
    rewrite trace_conj by auto. apply sumd_ext. intros. now rewrite vget_tab by auto.
  Qed.
  Lemma mtrace_sub : forall x y : TM, mtrace (msub x y) = mtrace x - mtrace y.
  Proof. intros. unfold mtrace. rewrite <- sumd_minus. apply sumd_ext. intros. now rewrite mget_sub by auto. Qed.
  Lemma mmul_sub_l : forall x y z : TM, mmul (msub x y) z = msub (mmul x z) (mmul y z).
  Proof. intros. apply mext. intros i j Hi Hj. rewrite mget_sub, !mget_mul, <- sumd_minus by auto. apply sumd_ext. intros. rewrite mget_sub by auto. ring. Qed.
  Lemma mmul_sub_r : forall x y z : TM, mmul z (msub x y) = msub (mmul z x) (mmul z y).
  Proof. intros. apply mext. intros i j Hi Hj. rewrite mget_sub, !mget_mul, <- sumd_minus by auto. apply sumd_ext. intros. rewrite mget_sub by auto. ring. Qed.
  (** Klein's argument: a pointwise second order estimate of [f] carries over to traces. *)
  Lemma klein : forall (f g : R -> R) C m M (U W : TM) (a b : TV), orthogonal U -> orthogonal W ->
    (forall x y, m <= x <= M -> m <= y <= M -> Rabs (f x - f y - (x - y) * g y) <= C * (x - y)²) ->
    (forall k, (k < dim)%nat -> m <= vget a k <= M) -> (forall k, (k < dim)%nat -> m <= vget b k <= M) ->
    let A := conj U (mdiag a) in let B := conj W (mdiag b) in let gB := conj W (fdiag g b) in
    Rabs (sumd (fun k => f (vget a k)) - sumd (fun k => f (vget b k)) - mtrace (mmul (msub A B) gB)) <= C * mtrace (mmul (msub A B) (msub A B)).
  Proof.
    intros f g C m M U W a b HU HW HC Ha Hb A B gB.
    assert (E1 : mtrace (mmul (msub A B) gB) = sumd (fun i => sumd (fun j => ov U W i j * ((vget a i - vget b j) * g (vget b j))))).
    { rewrite mmul_sub_l, mtrace_sub. subst A B gB. unfold fdiag. rewrite trace_cross, trace_self by auto.
      rewrite (sum_cols U W HU HW (fun k => vget b k * vget (vtab (fun k0 => g (vget b k0))) k)), <- sumd_minus. apply sumd_ext. intros i Hi. rewrite <- sumd_minus. apply sumd_ext. intros j Hj. rewrite vget_tab by auto. ring. }
    assert (E2 : mtrace (mmul (msub A B) (msub A B)) = sumd (fun i => sumd (fun j => ov U W i j * (vget a i - vget b j)²))).
    { rewrite mmul_sub_l, !mmul_sub_r, !mtrace_sub. rewrite (mtrace_mul_comm B A). subst A B. rewrite (trace_cross U W a b), (trace_self U a a HU), (trace_self W b b HW).
      rewrite (sum_cols U W HU HW (fun k => vget b k * vget b k)), (sum_rows U W HU HW (fun k => vget a k * vget a k)), <- !sumd_minus. apply sumd_ext. intros i Hi. rewrite <- !sumd_minus. apply sumd_ext. intros j Hj. unfold Rsqr. ring. }
    rewrite E1, E2, (sum_rows U W HU HW (fun k => f (vget a k))), (sum_cols U W HU HW (fun k => f (vget b k))), <- !sumd_minus.
    rewrite <- sumd_scal. rewrite (sumd_Rsum (fun k => C * _)). rewrite sumd_Rsum. eapply Rle_trans; [apply Rabs_Rsum|]. apply Rsum_le. intros i Hi. apply in_seq in Hi.
    rewrite <- !sumd_minus. rewrite <- sumd_scal. rewrite !sumd_Rsum. eapply Rle_trans; [apply Rabs_Rsum|]. apply Rsum_le. intros j Hj. apply in_seq in Hj.
    replace (ov U W i j * f (vget a i) - ov U W i j * f (vget b j) - ov U W i j * ((vget a i - vget b j) * g (vget b j))) with (ov U W i j * (f (vget a i) - f (vget b j) - (vget a i - vget b j) * g (vget b j))) by ring.
    assert (O : 0 <= ov U W i j) by apply Rle_0_sqr. rewrite Rabs_mult, Rabs_right by lra. replace (C * (ov U W i j * (vget a i - vget b j)²)) with (ov U W i j * (C * (vget a i - vget b j)²)) by ring.
    apply Rmult_le_compat_l; auto. apply HC; [apply Ha|apply Hb]; lia.
  Qed.
End Klein2.

(** ** Determinant along a line *)
Lemma det_line : forall G, two_or_three G -> forall L : TM, exists c2 c3, forall t, mdet (madd mident (mlscale t L)) = 1 + t * mtrace L + t * t * c2 + t * t * t * c3.
Proof.
  intros G [-> | ->] L.
  - exists (mdet L), 0. intros t. unfold madd, mlscale, mtrace. brute. field.
  - exists (((mtrace L)² - mtrace (mmul L L)) / 2), (mdet L). intros t. unfold madd, mlscale, mtrace, Rsqr. brute. field.
Qed.
Lemma det_near : forall G, two_or_three G -> forall L : TM, exists d, 0 < d <= 1 /\ forall t, Rabs t < d -> / 2 <= mdet (madd mident (mlscale t L)).
Proof.
  intros G HG L. destruct (det_line G HG L) as (c2 & c3 & E). set (S := Rabs (mtrace L) + Rabs c2 + Rabs c3).
  assert (HS : 0 <= S) by (unfold S; pose proof (Rabs_pos (mtrace L)); pose proof (Rabs_pos c2); pose proof (Rabs_pos c3); lra).
  exists (Rmin 1 (/ (2 * (S + 1)))). assert (P : 0 < / (2 * (S + 1))) by (apply Rinv_0_lt_compat; lra). split; [split; [apply Rmin_pos; lra|apply Rmin_l]|].
  intros t Ht. rewrite E. assert (T1 : Rabs t < 1) by (eapply Rlt_le_trans; [exact Ht|apply Rmin_l]). assert (T2 : Rabs t < / (2 * (S + 1))) by (eapply Rlt_le_trans; [exact Ht|apply Rmin_r]).
  assert (T3 : Rabs t * (S + 1) <= / 2).
  { apply Rle_trans with (/ (2 * (S + 1)) * (S + 1)); [apply Rmult_le_compat_r; lra|]. apply Req_le. field. lra. }
  pose proof (Rabs_pos t) as T0.
  assert (K : forall c, - (Rabs t * Rabs c) <= t * c) by (intros c; rewrite <- Rabs_mult; pose proof (Rle_abs (- (t * c))) as Q; rewrite Rabs_Ropp in Q; lra).
  pose proof (K (mtrace L)) as K1. pose proof (K (t * c2)) as K2. pose proof (K (t * t * c3)) as K3. rewrite !Rabs_mult in *.
  assert (B2 : Rabs t * (Rabs t * Rabs c2) <= Rabs t * Rabs c2) by (apply Rmult_le_compat_l; [lra|]; pose proof (Rabs_pos c2); nra).
  assert (B3 : Rabs t * (Rabs t * Rabs t * Rabs c3) <= Rabs t * Rabs c3) by (apply Rmult_le_compat_l; [lra|]; pose proof (Rabs_pos c3); assert (Rabs t * Rabs t <= 1) by nra; nra).
  unfold S in T3. nra.
Qed.
Section Line.
  Context {G : Geo R}.
  Hypothesis HG : two_or_three G.
  Let GL : GeoLaws G := geolaws G HG.
  Existing Instance GL.
  Variables F L : TM.
  Hypothesis HF : 0 < mdet F.
  Definition line (t : R) : TM := mmul (madd mident (mlscale t L)) F.
  Lemma line_0 : line 0 = F.
  Proof. unfold line. replace (madd mident (mlscale 0 L)) with (mident : TM); [apply mmul_id_l|]. mx. ring. Qed.
  Lemma det_pos : exists d, 0 < d <= 1 /\ forall t, Rabs t < d -> mdet F / 2 <= mdet (line t).
  Proof. destruct (det_near G HG L) as (d & Hd & E). exists d. split; auto. intros t Ht. unfold line. rewrite mdet_mul by auto. specialize (E t Ht). nra. Qed.
  Lemma lndet_derive : is_derive (fun t => ln (mdet (line t))) 0 (mtrace L).
  Proof.
    destruct (det_line G HG L) as (c2 & c3 & E). apply is_derive_ext with (fun t => ln ((1 + t * mtrace L + t * t * c2 + t * t * t * c3) * mdet F)).
    - intros t. unfold line. now rewrite mdet_mul, E by auto.
    - set (a := mtrace L). clearbody a. set (D := mdet F) in *. clearbody D. auto_derive; [nra|field; lra].
  Qed.
  Lemma line_get : forall t i j, (i < dim)%nat -> (j < dim)%nat -> mget (line t) i j = mget F i j + t * mget (mmul L F) i j.
  Proof. intros. unfold line. rewrite mmul_add_l, mmul_id_l, mget_add, mmul_scale_l, mget_lscale by auto. reflexivity. Qed.
  Lemma near_eq : forall (P : R -> Prop) d, 0 < d -> (forall t, Rabs t < d -> P t) -> locally 0 P.
  Proof. intros P d Hd H. exists (mkposreal d Hd). intros t Ht. apply H. unfold ball in Ht. cbn in Ht. unfold AbsRing_ball, abs, minus, plus, opp in Ht. cbn in Ht. now rewrite Ropp_0, Rplus_0_r in Ht. Qed.
  Lemma inner_F : inner F (mmul L F) = inner (mmul F (mtr F)) L.
  Proof.
    unfold inner. apply sumd_ext. intros i Hi.
    rewrite (sumd_ext _ (fun j => sumd (fun k => mget F i j * (mget L i k * mget F k j)))) by (intros; rewrite mget_mul by auto; now rewrite sumd_scal).
    rewrite sumd_swap. apply sumd_ext. intros k Hk. rewrite mget_mul by auto. rewrite <- sumd_scalr. apply sumd_ext. intros j Hj. rewrite mget_tr by auto. ring.
  Qed.
  Lemma inner_add_l : forall a b c : TM, inner (madd a b) c = inner a c + inner b c.
  Proof. intros. unfold inner. rewrite <- sumd_plus. apply sumd_ext. intros. rewrite <- sumd_plus. apply sumd_ext. intros. rewrite mget_add by auto. ring. Qed.
  Lemma inner_sub_l : forall a b c : TM, inner (msub a b) c = inner a c - inner b c.
  Proof. intros. unfold inner. rewrite <- sumd_minus. apply sumd_ext. intros. rewrite <- sumd_minus. apply sumd_ext. intros. rewrite mget_sub by auto. ring. Qed.
  Lemma inner_lscale_l : forall s (a c : TM), inner (mlscale s a) c = s * inner a c.
  Proof. intros. unfold inner. rewrite <- sumd_scal. apply sumd_ext. intros. rewrite <- sumd_scal. apply sumd_ext. intros. rewrite mget_lscale by auto. ring. Qed.
  Lemma inner_ident : forall c : TM, inner mident c = mtrace c.
  Proof.
    intros c. unfold inner, mtrace. apply sumd_ext. intros i Hi. rewrite <- (sumd_pick (fun j => mget c i j) i Hi). apply sumd_ext. intros j Hj.
    rewrite mget_ident by auto. destruct (Nat.eqb_spec i j); subst; ring.
  Qed.
  Lemma neo_derive : forall p psi, elastic_model p = NeoHookean -> strain_energy p psi -> is_derive (fun t => psi (line t)) 0 (inner (neo_hookean_stress p F) L).
  Proof.
    intros p psi Em Hpsi. destruct det_pos as (d & (Hd & _) & Dp).
    set (N0 := sumd (fun i => sumd (fun j => mget F i j * mget F i j))). set (N2 := sumd (fun i => sumd (fun j => mget (mmul L F) i j * mget (mmul L F) i j))).
    set (N1 := inner F (mmul L F)).
    apply is_derive_ext_loc with (fun t => mu p / 2 * (N0 + 2 * t * N1 + t * t * N2 - INR dim) - mu p * ln (mdet (line t)) + lambda p / 2 * (ln (mdet (line t)))²).
    - apply near_eq with d; auto. intros t Ht. specialize (Dp t Ht). pose proof (Hpsi (line t) ltac:(lra)) as E. rewrite Em in E. rewrite E. f_equal. f_equal. f_equal. f_equal.
      unfold N0, N1, N2, inner. rewrite <- !sumd_scal, <- !sumd_plus. apply sumd_ext. intros i Hi. rewrite <- !sumd_scal, <- !sumd_plus. apply sumd_ext. intros j Hj. rewrite line_get by auto. unfold Rsqr. ring.
    - pose proof lndet_derive as DL. set (f := fun t => ln (mdet (line t))) in *. change (is_derive (fun t => mu p / 2 * (N0 + 2 * t * N1 + t * t * N2 - INR dim) - mu p * f t + lambda p / 2 * (f t)²) 0 (inner (neo_hookean_stress p F) L)).
      assert (F0 : f 0 = ln (mdet F)) by (unfold f; now rewrite line_0). unfold neo_hookean_stress. rewrite inner_add_l, !inner_lscale_l, inner_sub_l, inner_ident, <- inner_F, <- F0. fold N1. clearbody N0 N1 N2. set (a := mtrace L) in *. clearbody a.
      change (is_derive f 0 a) in DL. assert (Dv : Derive f 0 = a) by now apply is_derive_unique. clearbody f. clear F0 Dp Hpsi. set (m := mu p). set (l := lambda p). clearbody m l. unfold Rsqr. auto_derive; [repeat split; auto; now exists a|]. replace (Derive (fun x => f x) 0) with a by (symmetry; exact Dv). field.
  Qed.

  (** Eigenvalues of A A^T for a deformation A with a given trace and determinant. *)
  Lemma eig_bounds : forall (A U V : TM) (s : TV) M m, is_svd A U s V -> 0 <= m <= Rabs (mdet A) -> 1 <= M -> mtrace (mmul A (mtr A)) <= M ->
    forall k, (k < dim)%nat -> m * m / (M * M) <= (vget s k)² <= M.
  Proof.
    intros A U V s M m S Hm HM HT.
    assert (T : mtrace (mmul A (mtr A)) = sumd (fun k => (vget s k)²)).
    { destruct S as [HU (HV & _) HA _]. rewrite HA. rewrite !mtr_mul, mtr_tr, mtr_diag. rewrite !mmul_assoc, <- (mmul_assoc (mtr V) V), HV, mmul_id_l. rewrite mtrace_mul_comm, !mmul_assoc. rewrite (proj1 HU), mmul_id_r.
      rewrite <- (fdiag_id s), fdiag_mul. unfold fdiag. rewrite mtrace_diag. unfold vsum. apply sumd_ext. intros. now rewrite vget_tab by auto. }
    assert (Up : forall k, (k < dim)%nat -> (vget s k)² <= M).
    { intros k Hk. eapply Rle_trans; [|exact HT]. rewrite T. apply (sumd_ge_one (fun k => (vget s k)²)); auto. intros. apply Rle_0_sqr. }
    assert (DD : mdet A * mdet A = Rsqr (fold_right Rmult 1 (map (vget s) (seq 0 dim)))).
    { rewrite (sv_F _ _ _ _ S), !mdet_mul, mdet_tr, mdet_diag by auto. pose proof (mdet_orth G HG U (sv_U _ _ _ _ S)) as A1. pose proof (mdet_orth G HG V (sv_V _ _ _ _ S)) as A2.
      set (P := fold_right _ _ _). unfold Rsqr. transitivity ((mdet U * mdet U) * (mdet V * mdet V) * (P * P)); [ring|]. rewrite A1, A2. ring. }
    assert (D2 : m * m <= mdet A * mdet A) by (rewrite <- (Rabs_mult_self (mdet A)) || (replace (mdet A * mdet A) with (Rabs (mdet A) * Rabs (mdet A)) by (rewrite <- Rabs_mult; apply Rabs_right; nra)); nra).
    rewrite DD in D2. clear T DD HT. intros k Hk. split; [|auto].
    assert (MM : 0 < M * M) by nra. apply Rmult_le_reg_r with (M * M); auto. unfold Rdiv. rewrite Rmult_assoc, Rinv_l, Rmult_1_r by lra. eapply Rle_trans; [exact D2|]. clear S Hm D2.
    assert (Z : forall j, 0 <= (vget s j)²) by (intros; apply Rle_0_sqr).
    destruct (gl_dim (G := G)) as [Hd|Hd]; rewrite Hd in *; cbn [seq map fold_right].
    - pose proof (Up 0%nat ltac:(lia)) as U0. pose proof (Up 1%nat ltac:(lia)) as U1. pose proof (Z 0%nat). pose proof (Z 1%nat). rewrite !Rsqr_mult, Rsqr_1.
      rewrite Rmult_1_r. assert (M <= M * M) by nra. destruct k as [|[|k]]; [apply Rmult_le_compat_l; lra| |lia]. rewrite Rmult_comm. apply Rmult_le_compat_l; lra.
    - pose proof (Up 0%nat ltac:(lia)) as U0. pose proof (Up 1%nat ltac:(lia)) as U1. pose proof (Up 2%nat ltac:(lia)) as U2. pose proof (Z 0%nat) as Z0. pose proof (Z 1%nat) as Z1. pose proof (Z 2%nat) as Z2. rewrite !Rsqr_mult, Rsqr_1, Rmult_1_r.
      set (x := (vget s 0)²) in *. set (y := (vget s 1)²) in *. set (z := (vget s 2)²) in *.
      assert (B : forall a b, 0 <= a <= M -> 0 <= b <= M -> a * b <= M * M) by (intros; apply Rmult_le_compat; lra).
      destruct k as [|[|[|k]]]; [| | |lia].
      + apply Rmult_le_compat_l; auto.
      + replace (x * (y * z)) with (y * (x * z)) by ring. apply Rmult_le_compat_l; auto.
      + replace (x * (y * z)) with (z * (x * y)) by ring. apply Rmult_le_compat_l; auto.
  Qed.
  Lemma lnsum_det : forall (A U V : TM) (s : TV), is_svd A U s V -> 0 < mdet A -> sumd (fun k => ln (vget s k)) = ln (mdet A).
  Proof.
    intros A U V s S DA. pose proof (pos_of_det HG A U s V S ltac:(lra)) as Ps.
    assert (DD : mdet A * mdet A = Rsqr (fold_right Rmult 1 (map (vget s) (seq 0 dim)))).
    { rewrite (sv_F _ _ _ _ S), !mdet_mul, mdet_tr, mdet_diag by auto. pose proof (mdet_orth G HG U (sv_U _ _ _ _ S)) as A1. pose proof (mdet_orth G HG V (sv_V _ _ _ _ S)) as A2.
      set (P := fold_right _ _ _). unfold Rsqr. transitivity ((mdet U * mdet U) * (mdet V * mdet V) * (P * P)); [ring|]. rewrite A1, A2. ring. }
    assert (K : forall l, (forall k, In k l -> 0 < vget s k) -> 0 < fold_right Rmult 1 (map (vget s) l) /\ ln (fold_right Rmult 1 (map (vget s) l)) = fold_right Rplus 0 (map (fun k => ln (vget s k)) l)).
    { induction l as [|k l IH]; intros Hl; cbn [map fold_right]; [split; [lra|apply ln_1]|]. destruct IH as (I1 & I2); [intros; apply Hl; now right|]. assert (0 < vget s k) by (apply Hl; now left). split; [nra|]. rewrite ln_mult by auto. now rewrite I2. }
    destruct (K (seq 0 dim)) as (K1 & K2); [intros k Hk; apply in_seq in Hk; apply Ps; lia|]. rewrite sumd_fold by auto. rewrite <- K2. f_equal. symmetry. apply Rsqr_inj; [lra|lra|exact DD].
  Qed.
End Line.
Section LineHencky.
  Context {G : Geo R}.
  Hypothesis HG : two_or_three G.
  Let GL : GeoLaws G := geolaws G HG.
  Existing Instance GL.
  Lemma left_cauchy : forall (A B : TM) (d : TV) C, is_svd A B d C -> mmul A (mtr A) = conj B (mdiag (vtab (fun k => (vget d k)²))).
  Proof.
    intros A B d C [HB (HC & _) HA _]. rewrite HA. rewrite !mtr_mul, mtr_tr, mtr_diag. unfold conj. rewrite !mmul_assoc. rewrite <- (mmul_assoc (mtr C) C), HC, mmul_id_l.
    rewrite <- (mmul_assoc (mdiag d) (mdiag d)). do 2 f_equal. rewrite <- !(fdiag_id d), fdiag_mul. reflexivity.
  Qed.
  Lemma trace_tr_inner : forall E L : TM, mtrace (mmul E (mtr L)) = inner E L.
  Proof. intros. unfold mtrace, inner. apply sumd_ext. intros i Hi. rewrite mget_mul by auto. apply sumd_ext. intros j Hj. now rewrite mget_tr by auto. Qed.
  Lemma mtrace_mtr : forall a : TM, mtrace (mtr a) = mtrace a.
  Proof. intros. unfold mtrace. apply sumd_ext. intros. now rewrite mget_tr by auto. Qed.
  Lemma trace_sym_inner : forall E L : TM, mtr E = E -> mtrace (mmul L E) = inner E L.
  Proof. intros E L HE. rewrite <- mtrace_mtr, mtr_mul, HE. apply trace_tr_inner. Qed.
  Lemma conj_sym : forall (W : TM) d, mtr (conj W (mdiag d)) = conj W (mdiag d).
  Proof. intros. unfold conj. now rewrite !mtr_mul, mtr_tr, mtr_diag, mmul_assoc. Qed.

  Variables F L : TM.
  Hypothesis HF : 0 < mdet F.
  Let B : TM := mmul F (mtr F).
  Let X : TM := madd (mmul L B) (mmul B (mtr L)).
  Let Y : TM := mmul (mmul L B) (mtr L).
  Lemma line_B : forall t, mmul (line F L t) (mtr (line F L t)) = madd B (madd (mlscale t X) (mlscale (t * t) Y)).
  Proof.
    intros t. unfold line, X, Y, B. rewrite !mtr_mul, mtr_add, mtr_ident. replace (mtr (mlscale t L)) with (mlscale t (mtr L)) by (mx; rewrite ?mget_tr, ?mget_lscale, ?mget_tr by auto; reflexivity).
    rewrite !mmul_assoc. rewrite !mmul_add_l, !mmul_add_r, !mmul_scale_l, !mmul_scale_r, !mmul_id_l, !mmul_id_r.
    mx. ring.
  Qed.
  Lemma hencky_derive : forall p psi tau, elastic_model p = Hencky -> strain_energy p psi -> is_hencky_stress p F tau -> is_derive (fun t => psi (line F L t)) 0 (inner tau L).
  Proof.
    intros p psi tau Em Hpsi Ht. destruct (det_pos HG F L HF) as (d & (Hd & Hd1) & Dp).
    pose proof (Hpsi F HF) as E0. rewrite Em in E0. destruct E0 as (W & s0 & V0 & S0 & P0). pose proof (pos_of_det HG _ _ _ _ S0 ltac:(lra)) as Ps0.
    assert (Et : tau = hencky_stress p W (vtab (fun k => ln (vget s0 k)))) by (apply (hencky_unique p F); auto; exists W, s0, V0; repeat split; auto; apply S0).
    set (M := Rabs (mtrace B) + Rabs (mtrace X) + Rabs (mtrace Y) + 1).
    assert (HM : 1 <= M) by (unfold M; pose proof (Rabs_pos (mtrace B)); pose proof (Rabs_pos (mtrace X)); pose proof (Rabs_pos (mtrace Y)); lra).
    set (m := (mdet F / 2) * (mdet F / 2) / (M * M)).
    assert (Hm : 0 < m) by (unfold m; apply Rdiv_lt_0_compat; nra).
    assert (Bd : forall t U s V, Rabs t < d -> is_svd (line F L t) U s V -> forall k, (k < dim)%nat -> m <= (vget s k)² <= M).
    { intros t U s V Htd S. apply (eig_bounds HG (line F L t) U V s M (mdet F / 2) S); auto.
      - specialize (Dp t Htd). rewrite Rabs_right; lra.
      - rewrite line_B, !mtrace_add, !mtrace_lscale. unfold M. pose proof (Rle_abs (mtrace B)). pose proof (Rle_abs (t * mtrace X)) as Q1. pose proof (Rle_abs (t * t * mtrace Y)) as Q2. rewrite !Rabs_mult in *.
        pose proof (Rabs_pos t). pose proof (Rabs_pos (mtrace X)). pose proof (Rabs_pos (mtrace Y)). assert (Rabs t <= 1) by lra. assert (Rabs t * Rabs t <= 1) by nra. nra. }
    assert (HmM : m <= M).
    { assert (S0' : is_svd (line F L 0) W s0 V0) by now rewrite line_0. pose proof (Bd 0 W s0 V0 ltac:(rewrite Rabs_R0; lra) S0' 0%nat dim_pos). lra. }
    destruct (ln_sq_taylor m M Hm HmM) as (C & HC & Tay).
    set (g := fun y => ln y / (2 * y)). set (b := vtab (fun k => (vget s0 k)²)). set (gB := conj W (fdiag g b)). set (E := conj W (fdiag ln s0)).
    assert (EB : B = conj W (mdiag b)) by (unfold B; apply (left_cauchy F W s0 V0 S0)).
    assert (EG : forall k, (k < dim)%nat -> (vget s0 k)² * g ((vget s0 k)²) = ln (vget s0 k)).
    { intros k Hk. specialize (Ps0 k Hk). unfold g, Rsqr. rewrite ln_mult by auto. field. lra. }
    assert (BG : mmul B gB = E).
    { rewrite EB. unfold gB. rewrite conj_mul by apply S0. unfold E. f_equal. rewrite <- (fdiag_id b), fdiag_mul. unfold b. rewrite (fdiag_comp _ Rsqr). apply fdiag_ext. exact EG. }
    assert (GB : mmul gB B = E).
    { rewrite EB. unfold gB. rewrite conj_mul by apply S0. unfold E. f_equal. rewrite <- (fdiag_id b), fdiag_mul. unfold b. rewrite (fdiag_comp _ Rsqr). apply fdiag_ext. intros k Hk. rewrite Rmult_comm. now apply EG. }
    assert (TX : mtrace (mmul X gB) = 2 * inner E L).
    { unfold X. rewrite mmul_add_l, mtrace_add. rewrite mmul_assoc, BG, (trace_sym_inner E L) by apply conj_sym. rewrite (mtrace_mul_comm (mmul B (mtr L)) gB), <- mmul_assoc, GB, trace_tr_inner. ring. }
    set (K := Rabs (mtrace (mmul X X)) + Rabs (mtrace (mmul X Y)) + Rabs (mtrace (mmul Y X)) + Rabs (mtrace (mmul Y Y))).
    set (h := fun t => psi (line F L t) - lambda p / 2 * (ln (mdet (line F L t)))²).
    assert (DH : is_derive h 0 (mu p * mtrace (mmul X gB))).
    { apply quad_derive with d (Rabs (mu p) * (C * K + Rabs (mtrace (mmul Y gB)))); auto. intros t Htd.
      pose proof (Dp t Htd) as Dt. pose proof (Hpsi (line F L t) ltac:(lra)) as Et1. rewrite Em in Et1. destruct Et1 as (U & s & V & S & P).
      assert (H0 : h 0 = mu p * sumd (fun k => / 4 * (ln (vget b k))²)).
      { unfold h. rewrite line_0 by auto. rewrite P0. rewrite (lnsum_det HG F W V0 s0 S0 HF). ring_simplify. f_equal. apply sumd_ext. intros k Hk. unfold b. rewrite vget_tab by auto. specialize (Ps0 k Hk). unfold Rsqr. rewrite ln_mult by auto. field. }
      assert (H1 : h t = mu p * sumd (fun k => / 4 * (ln (vget (vtab (fun k => (vget s k)²)) k))²)).
      { unfold h. rewrite P. rewrite (lnsum_det HG _ U V s S ltac:(lra)). ring_simplify. f_equal. apply sumd_ext. intros k Hk. rewrite vget_tab by auto. pose proof (pos_of_det HG _ _ _ _ S ltac:(lra) k Hk). unfold Rsqr. rewrite ln_mult by auto. field. }
      pose proof (klein (fun x => / 4 * (ln x)²) g C m M U W (vtab (fun k => (vget s k)²)) b (sv_U _ _ _ _ S) (sv_U _ _ _ _ S0) Tay) as KL.
      assert (KA : forall k, (k < dim)%nat -> m <= vget (vtab (fun k => (vget s k)²)) k <= M) by (intros k Hk; rewrite vget_tab by auto; apply (Bd t U s V); auto).
      assert (KB : forall k, (k < dim)%nat -> m <= vget b k <= M).
      { intros k Hk. unfold b. rewrite vget_tab by auto. apply (Bd 0 W s0 V0); auto; [rewrite Rabs_R0; lra|now rewrite line_0]. }
      specialize (KL KA KB). cbv zeta beta in KL. rewrite <- (left_cauchy _ _ _ _ S), <- EB, line_B in KL. fold gB in KL.
      replace (msub (madd B (madd (mlscale t X) (mlscale (t * t) Y))) B) with (madd (mlscale t X) (mlscale (t * t) Y)) in KL by (mx; ring).
      rewrite !mmul_add_l, !mmul_add_r, !mtrace_add, !mmul_scale_l, !mmul_scale_r, !mtrace_lscale in KL.
      rewrite H0, H1. set (f1 := sumd (fun k => / 4 * (ln (vget (vtab (fun k => (vget s k)²)) k))²)) in *. set (f0 := sumd (fun k => / 4 * (ln (vget b k))²)) in *.
      replace (mu p * f1 - mu p * f0 - t * (mu p * mtrace (mmul X gB))) with (mu p * ((f1 - f0 - (t * mtrace (mmul X gB) + t * t * mtrace (mmul Y gB))) + t * t * mtrace (mmul Y gB))) by ring.
      rewrite Rabs_mult, (Rmult_assoc (Rabs (mu p))). apply Rmult_le_compat_l; [apply Rabs_pos|]. eapply Rle_trans; [apply Rabs_triang|]. rewrite Rmult_plus_distr_r. apply Rplus_le_compat.
      - eapply Rle_trans; [exact KL|]. rewrite (Rmult_assoc C K). apply Rmult_le_compat_l; auto. unfold K, Rsqr. assert (T1 : Rabs t <= 1) by lra. apply Rabs_le_between in T1.
        pose proof (Rle_abs (mtrace (mmul X X))). pose proof (Rabs_le_between (mtrace (mmul X Y)) (Rabs (mtrace (mmul X Y)))) as (Q1 & _). specialize (Q1 (Rle_refl _)). pose proof (Rabs_le_between (mtrace (mmul Y X)) (Rabs (mtrace (mmul Y X)))) as (Q2 & _). specialize (Q2 (Rle_refl _)). pose proof (Rle_abs (mtrace (mmul Y Y))). pose proof (Rabs_pos (mtrace (mmul X Y))). pose proof (Rabs_pos (mtrace (mmul Y X))). pose proof (Rabs_pos (mtrace (mmul Y Y))).
        set (xx := mtrace (mmul X X)) in *. set (xy := mtrace (mmul X Y)) in *. set (yx := mtrace (mmul Y X)) in *. set (yy := mtrace (mmul Y Y)) in *.
        assert (TT : 0 <= t * t <= 1) by nra.
        assert (J1 : t * xy <= Rabs xy) by nra. assert (J2 : t * yx <= Rabs yx) by nra. assert (J3 : t * t * yy <= Rabs yy) by nra.
        apply Rle_trans with ((t * t) * (xx + t * xy + t * yx + t * t * yy)); [apply Req_le; ring|]. rewrite (Rmult_comm _ (t * t)). apply Rmult_le_compat_l; lra.
      - rewrite !Rabs_mult. unfold Rsqr. rewrite <- Rabs_mult. rewrite (Rabs_right (t * t)) by nra. lra. }
    assert (HE : forall t : R, h t + lambda p / 2 * (ln (mdet (line F L t)))² = psi (line F L t)) by (intros t; unfold h; ring).
    apply is_derive_ext with (fun t => h t + lambda p / 2 * (ln (mdet (line F L t)))²); [exact HE|]. clear HE.
    pose proof (lndet_derive HG F L HF) as DL. set (f := fun t => ln (mdet (line F L t))) in *. change (is_derive (fun t => h t + lambda p / 2 * (f t)²) 0 (inner tau L)).
    assert (F0 : f 0 = ln (mdet F)) by (unfold f; now rewrite line_0).
    replace (inner tau L) with (mu p * mtrace (mmul X gB) + lambda p * f 0 * mtrace L).
    - change (is_derive f 0 (mtrace L)) in DL. set (a := mtrace L) in *. set (c := mu p * mtrace (mmul X gB)) in *. clearbody a c.
      assert (D1 : Derive f 0 = a) by now apply is_derive_unique. assert (D2 : Derive h 0 = c) by now apply is_derive_unique. clear F0. clearbody f h. set (l := lambda p). clearbody l. unfold Rsqr.
      auto_derive; [repeat split; auto; first [now exists c|now exists a]|]. replace (Derive (fun x => f x) 0) with a by (symmetry; exact D1). replace (Derive (fun x => h x) 0) with c by (symmetry; exact D2). field.
    - rewrite F0, TX. clear DL. rewrite Et. unfold hencky_stress.
      rewrite (sumd_ext (fun j => vget (vtab (fun k => ln (vget s0 k))) j) (fun k => ln (vget s0 k))) by (intros; now rewrite vget_tab). rewrite (lnsum_det HG F W V0 s0 S0 HF).
      replace (mdiag (vtab (fun k => lambda p * ln (mdet F) + 2 * mu p * vget (vtab (fun k0 => ln (vget s0 k0))) k))) with (madd (mlscale (lambda p * ln (mdet F)) mident) (mlscale (2 * mu p) (fdiag ln s0))).
      2:{ unfold fdiag. mx. rewrite ?mget_diag, ?mget_ident, ?vget_tab by auto. match goal with |- context [Nat.eqb ?i ?j] => destruct (Nat.eqb i j) end; rewrite ?vget_tab by auto; ring. }
      rewrite mmul_add_r, mmul_add_l, !mmul_scale_r, !mmul_scale_l, mmul_id_r. rewrite (proj2 (sv_U _ _ _ _ S0)). change (mmul (mmul W (fdiag ln s0)) (mtr W)) with E.
      rewrite inner_add_l, !inner_lscale_l, inner_ident by auto. ring.
  Qed.
End LineHencky.
