(** * SvdExist: the contract [svd_ok] of the singular value decomposition can be met (2D), so the
    theorems that assume it are not empty. *)
From Coq Require Import Reals ZArith Lra Lia List Bool Psatz.
From Verif Require Import Num NumR Tools Lin Types SpecPlastic.
Local Open Scope R_scope.

Lemma angle : forall x y, { t | x = sqrt (x² + y²) * cos t /\ y = sqrt (x² + y²) * sin t }.
Proof.
  intros x y. set (r := sqrt (x² + y²)). pose proof (Rle_0_sqr x). pose proof (Rle_0_sqr y).
  assert (Hr : r * r = x² + y²) by (apply sqrt_sqrt; lra). assert (R0 : 0 <= r) by apply sqrt_pos. unfold Rsqr in *.
  destruct (Req_EM_T r 0) as [Z|Z].
  - exists 0. rewrite Z, !Rmult_0_l. rewrite Z in Hr. split; nra.
  - assert (Hp : 0 < r) by lra.
    assert (U : (x / r) * (x / r) = 1 - (y / r) * (y / r)) by (field_simplify_eq; [nra|lra]).
    assert (B : -1 <= x / r <= 1) by (split; nra).
    assert (S : sqrt (1 - (x / r)²) = Rabs (y / r)) by (unfold Rsqr; rewrite U; replace (1 - (1 - y / r * (y / r))) with (Rsqr (y / r)) by (unfold Rsqr; ring); apply sqrt_Rsqr_abs).
    destruct (Rle_lt_dec 0 y) as [L|L].
    + exists (acos (x / r)). rewrite cos_acos, sin_acos, S, Rabs_pos_eq by (auto; apply Rmult_le_pos; auto; apply Rlt_le, Rinv_0_lt_compat; auto). split; field; lra.
    + exists (- acos (x / r)). rewrite cos_neg, sin_neg, cos_acos, sin_acos, S by auto. rewrite Rabs_left by (unfold Rdiv; pose proof (Rinv_0_lt_compat r Hp); nra). split; field; lra.
Qed.

Notation M2R := (@TM R (Geo2 R)).
Definition rot (t : R) : M2R := mkM2 (cos t) (- sin t) (sin t) (cos t).
Definition svd2 (F : M2R) : M2R * @TV R (Geo2 R) * M2R :=
  let a := m2_00 F in let b := m2_01 F in let c := m2_10 F in let d := m2_11 F in
  let x1 := (a + d) / 2 in let y1 := (c - b) / 2 in let x2 := (a - d) / 2 in let y2 := (c + b) / 2 in
  let r1 := sqrt (x1² + y1²) in let r2 := sqrt (x2² + y2²) in
  let t1 := proj1_sig (angle x1 y1) in let t2 := proj1_sig (angle x2 y2) in
  let s := r1 - r2 in let e := if Rle_lt_dec 0 s then 1 else -1 in let th := (t1 - t2) / 2 in
  (rot ((t1 + t2) / 2), mkV2 (r1 + r2) (e * s), mkM2 (cos th) (e * sin th) (- sin th) (e * cos th)).

Lemma m2_eq : forall a b : M2R, m2_00 a = m2_00 b -> m2_01 a = m2_01 b -> m2_10 a = m2_10 b -> m2_11 a = m2_11 b -> a = b.
Proof. intros [] []; cbn; intros; congruence. Qed.

Lemma svd2_ok : svd_ok (G := Geo2 R) svd2.
Proof.
  intros F U s V H. unfold svd2 in H.
  destruct (angle ((m2_00 F + m2_11 F) / 2) ((m2_10 F - m2_01 F) / 2)) as (t1 & A1 & A2).
  destruct (angle ((m2_00 F - m2_11 F) / 2) ((m2_10 F + m2_01 F) / 2)) as (t2 & B1 & B2). cbn [proj1_sig] in H. cbv zeta in H.
  set (r1 := sqrt (((m2_00 F + m2_11 F) / 2)² + ((m2_10 F - m2_01 F) / 2)²)) in *.
  set (r2 := sqrt (((m2_00 F - m2_11 F) / 2)² + ((m2_10 F + m2_01 F) / 2)²)) in *.
  assert (R1 : 0 <= r1) by apply sqrt_pos. assert (R2 : 0 <= r2) by apply sqrt_pos. clearbody r1 r2.
  set (e := if Rle_lt_dec 0 (r1 - r2) then 1 else -1) in *.
  assert (E : e * e = 1 /\ 0 <= e * (r1 - r2)) by (unfold e; destruct (Rle_lt_dec 0 (r1 - r2)); split; lra). clearbody e. destruct E as (E1 & E2).
  assert (E3 : e ^ 2 = 1) by (rewrite <- E1; ring).
  set (ph := (t1 + t2) / 2) in *. set (th := (t1 - t2) / 2) in *.
  assert (T1 : t1 = ph + th) by (unfold ph, th; field). assert (T2 : t2 = ph - th) by (unfold ph, th; field). clearbody ph th. subst t1 t2.
  rewrite cos_plus in A1. rewrite sin_plus in A2. rewrite cos_minus in B1. rewrite sin_minus in B2.
  pose proof (sin2_cos2 ph) as C1. pose proof (sin2_cos2 th) as C2. unfold Rsqr in C1, C2.
  injection H as <- <- <-. unfold rot.
  set (cp := cos ph) in *. set (sp := sin ph) in *. set (ct := cos th) in *. set (st := sin th) in *. clearbody cp sp ct st.
  assert (O : forall c s e, s * s + c * c = 1 -> e * e = 1 -> orthogonal (G := Geo2 R) (mkM2 c (e * s) (- s) (e * c))).
  { intros c s e' H1 H2. assert (P2 : e' ^ 2 = 1) by (rewrite <- H2; ring). split; apply m2_eq; cbn; numR; rewrite ?nofZ_R; numR; cbn; ring_simplify; rewrite ?P2; lra. }
  split.
  - replace (mkM2 cp (- sp) sp cp) with (mkM2 cp (1 * - sp) (- - sp) (1 * cp)) by (apply m2_eq; cbn; ring). apply O; nra.
  - apply O; lra.
  - apply m2_eq; cbn; rewrite ?nofZ_R; numR; cbn; ring_simplify.
    + rewrite ?E3. lra.
    + rewrite ?E3. lra.
    + rewrite ?E3. lra.
    + rewrite ?E3. lra.
  - intros k Hk. destruct k as [|k]; cbn; lra.
Qed.

(** The same, with the obvious decomposition of non-negative diagonal matrices (used in the
    examples). *)
Definition diagonal (F : M2R) : Prop := 0 <= m2_00 F /\ 0 <= m2_11 F /\ m2_01 F = 0 /\ m2_10 F = 0.
Definition is_diag (F : M2R) : {diagonal F} + {~ diagonal F}.
Proof.
  unfold diagonal. destruct (Rle_lt_dec 0 (m2_00 F)); [|right; lra]. destruct (Rle_lt_dec 0 (m2_11 F)); [|right; lra].
  destruct (Req_EM_T (m2_01 F) 0); [|right; tauto]. destruct (Req_EM_T (m2_10 F) 0); [|right; tauto]. left; auto.
Defined.
Definition svdx (F : M2R) : M2R * @TV R (Geo2 R) * M2R :=
  if is_diag F then (mident, mkV2 (m2_00 F) (m2_11 F), mident) else svd2 F.
Lemma svdx_ok : svd_ok (G := Geo2 R) svdx.
Proof.
  intros F U s V H. unfold svdx in H. destruct (is_diag F) as [(A & B & C & D)|_]; [|now apply svd2_ok].
  injection H as <- <- <-. split.
  1, 2: split; apply m2_eq; cbn; rewrite ?nofZ_R; numR; cbn; lra.
  - apply m2_eq; cbn; rewrite ?nofZ_R; numR; cbn; lra.
  - intros [|k] Hk; cbn; auto.
Qed.
Lemma svdx_diag : forall a b, 0 <= a -> 0 <= b -> svdx (mkM2 a 0 0 b) = (mident, mkV2 a b, mident).
Proof. intros. unfold svdx. destruct (is_diag _) as [_|E]; [reflexivity|]. destruct E. now repeat split. Qed.
