(** * FloatKernel: the quadratic kernel in double precision. *)
From Coq Require Import ZArith Reals Lra Lia List Bool Floats.SpecFloat.
From Flocq Require Import Core.
From Coquelicot Require Import Coquelicot.
From Verif Require Import Num NumF NumR Tools Lin Types SpecF KernelProofs FloatBase FloatGrid.
Import ListNotations.
Local Open Scope R_scope.

(** ** The kernel over the reals *)
Lemma N2_mid : forall u, -1/2 <= u <= 1/2 -> N2 u = 3/4 - u * u.
Proof.
  intros u H. unfold N2. rewrite ?nofZ_R. numR. destruct (Rltb_spec (Rabs u) (1/2)) as [C|C].
  - unfold Rabs. destruct (Rcase_abs u); ring.
  - assert (E : Rabs u = 1/2) by (revert C; unfold Rabs; destruct (Rcase_abs u); lra). rewrite E. destruct (Rltb_spec (1/2) (3/2)); [|lra].
    replace (u * u) with (Rabs u * Rabs u) by (unfold Rabs; destruct (Rcase_abs u); ring). rewrite E. lra.
Qed.
Lemma N2_right : forall u, 1/2 <= u <= 3/2 -> N2 u = 1/2 * (3/2 - u) * (3/2 - u).
Proof.
  intros u H. unfold N2. rewrite ?nofZ_R. numR. rewrite Rabs_pos_eq by lra. destruct (Rltb_spec u (1/2)); [lra|]. destruct (Rltb_spec u (3/2)); [reflexivity|].
  replace u with (3/2) by lra. lra.
Qed.
Lemma N2_even : forall u : R, N2 (- u) = N2 u.
Proof. intros u. unfold N2. numR. now rewrite Rabs_Ropp. Qed.
Lemma N2_left : forall u, -3/2 <= u <= -1/2 -> N2 u = 1/2 * (3/2 + u) * (3/2 + u).
Proof. intros u H. rewrite <- N2_even, N2_right by lra. ring. Qed.
Lemma N2_out : forall u, u <= -3/2 \/ 3/2 <= u -> N2 u = 0.
Proof.
  intros u H. assert (K : forall v, 3/2 <= v -> N2 v = 0).
  { intros v Hv. unfold N2. rewrite ?nofZ_R. numR. rewrite Rabs_pos_eq by lra. destruct (Rltb_spec v (1/2)); [lra|]. destruct (Rltb_spec v (3/2)); [lra|]. numR. lra. }
  destruct H; [rewrite <- N2_even|]; apply K; lra.
Qed.
Lemma N2_sum4 : forall y, 1/2 <= y <= 5/2 -> N2 y + N2 (y - 1) + N2 (y - 2) + N2 (y - 3) = 1.
Proof.
  intros y H. destruct (Rle_dec y (3/2)).
  - rewrite (N2_right y), (N2_mid (y - 1)), (N2_left (y - 2)), (N2_out (y - 3)) by lra. field.
  - rewrite (N2_out y), (N2_right (y - 1)), (N2_mid (y - 2)), (N2_left (y - 3)) by lra. field.
Qed.
Lemma dN2_bound : forall u : R, Rabs (dN2 u) <= 1.
Proof.
  intros u. unfold dN2. rewrite ?nofZ_R. numR. destruct (Rltb_spec (Rabs u) (1/2)) as [C|C]; [apply Rabs_def2 in C; apply Rabs_le; lra|].
  destruct (Rltb_spec (Rabs u) (3/2)) as [D|D]; [|rewrite Rabs_R0; lra]. unfold sgn. rewrite ?nofZ_R. numR.
  revert C D. unfold Rabs at 1 2. destruct (Rcase_abs u); intros C D; destruct (Rltb_spec 0 u); destruct (Rltb_spec u 0); try lra; cbn; apply Rabs_le; lra.
Qed.
Lemma N2_lip : forall u v : R, Rabs (N2 u - N2 v) <= Rabs (u - v).
Proof.
  intros u v. destruct (MVT_gen (N2 : R -> R) v u dN2) as (c & _ & E).
  - intros x _. apply N2_derive.
  - intros x _. apply continuity_pt_filterlim. apply (@ex_derive_continuous R_AbsRing R_NormedModule). exists (dN2 x). apply N2_derive.
  - rewrite E, Rabs_mult. pose proof (dN2_bound c). pose proof (Rabs_pos (u - v)). nra.
Qed.

(** ** The kernel in double precision *)
Lemma half_F : ffin (fofQ 1 2) /\ fval (fofQ 1 2) = 1/2.
Proof. replace (fofQ 1 2) with (S754_finite false 4503599627370496 (-53)) by (vm_compute; reflexivity). split; [split; reflexivity|]. rewrite fval_fin. cbn. lra. Qed.
Lemma threehalf_F : ffin (fofQ 3 2) /\ fval (fofQ 3 2) = 3/2.
Proof. replace (fofQ 3 2) with (S754_finite false 6755399441055744 (-52)) by (vm_compute; reflexivity). split; [split; reflexivity|]. rewrite fval_fin. cbn. lra. Qed.
Lemma threequarter_F : ffin (fofQ 3 4) /\ fval (fofQ 3 4) = 3/4.
Proof. replace (fofQ 3 4) with (S754_finite false 6755399441055744 (-53)) by (vm_compute; reflexivity). split; [split; reflexivity|]. rewrite fval_fin. cbn. lra. Qed.

Lemma rnd_between : forall x a b, ffin a -> ffin b -> fval a <= x <= fval b -> fval a <= rnd x <= fval b.
Proof. intros x a b Fa Fb H. rewrite <- (rnd_id a Fa), <- (rnd_id b Fb). split; apply rnd_mono; lra. Qed.
Lemma tiny_le : forall B, 1/8 <= B <= 8 -> bpow radix2 (-1000) <= B <= bpow radix2 1000.
Proof.
  intros B H. split.
  - apply Rle_trans with (bpow radix2 (-3)); [apply bpow_le; lia|]. change (/ 8 <= B). lra.
  - apply Rle_trans with (bpow radix2 3); [|apply bpow_le; lia]. change (B <= 8). lra.
Qed.

Section Kernel.
  Variable L : Libm.
  Hint Extern 0 (Num F) => exact (NumF L) : typeclass_instances.
  Lemma N2_F : forall u, ffin u -> ffin (@N2 F (NumF L) u) /\ 0 <= fval (@N2 F (NumF L) u) <= 3/4 /\ Rabs (fval (@N2 F (NumF L) u) - N2 (fval u)) <= 2 * eps.
  Proof.
    intros u Fu. destruct (fabs_spec u Fu) as (Fa & Ea). destruct half_F as (Fh & Eh). destruct threehalf_F as (Ft & Et). destruct threequarter_F as (Fq & Eq). pose proof eps_pos as E0.
    assert (Ev : N2 (fval u) = N2 (Rabs (fval u))) by (unfold Rabs; destruct (Rcase_abs (fval u)); [now rewrite N2_even|reflexivity]).
    rewrite Ev. unfold N2 at 1 2 3 4. cbv zeta. cbn [nabs nltb nofQ nsub nmul NumF]. rewrite !flt_spec by auto. rewrite Ea, Eh, Et. set (a := Rabs (fval u)) in *. pose proof (Rabs_pos (fval u)) as Pa. fold a in Pa.
    assert (F0 : ffin (S754_zero false)) by (split; reflexivity). assert (Z0 : fval (S754_zero false) = 0) by reflexivity.
    assert (F1 : ffin (fofZ 1) /\ fval (fofZ 1) = 1) by (apply fofZ_spec; lia). destruct F1 as (F1 & E1).
    assert (Fqq : ffin (fofQ 1 4) /\ fval (fofQ 1 4) = 1/4).
    { replace (fofQ 1 4) with (S754_finite false 4503599627370496 (-54)) by (vm_compute; reflexivity). split; [split; reflexivity|]. rewrite fval_fin. cbn. lra. }
    destruct Fqq as (Fqq & Eqq).
    destruct (Rlt_bool_spec a (1/2)) as [C|C]; [|destruct (Rlt_bool_spec a (3/2)) as [D|D]].
    - assert (S : 0 <= a * a <= 1/4) by nra.
      destruct (fmul_spec (SFabs u) (SFabs u) Fa Fa) as (K1 & K2); [rewrite Ea; fold a; eapply big; [apply Rabs_le; instantiate (1 := 1/4); lra|apply tiny_le; lra]|]. rewrite Ea in K2. fold a in K2.
      assert (R1 : 0 <= rnd (a * a) <= 1/4) by (pose proof (rnd_between (a * a) _ _ F0 Fqq) as Q; rewrite Z0, Eqq in Q; apply Q; lra).
      assert (D1 : Rabs (rnd (a * a) - a * a) <= eps * (1/4)) by (apply rnd_rel; [apply Rabs_le; lra|apply tiny_le; lra]). apply Rabs_le_inv in D1.
      destruct (fsub_spec (fofQ 3 4) (SFmul fprec femax (SFabs u) (SFabs u)) Fq K1) as (K3 & K4); [rewrite K2, Eq; eapply big; [apply Rabs_le; instantiate (1 := 3/4); lra|apply tiny_le; lra]|]. rewrite K2, Eq in K4.
      assert (R2 : 1/2 <= rnd (3/4 - rnd (a * a)) <= 3/4) by (pose proof (rnd_between (3/4 - rnd (a * a)) _ _ Fh Fq) as Q; rewrite Eh, Eq in Q; apply Q; lra).
      assert (D2 : Rabs (rnd (3/4 - rnd (a * a)) - (3/4 - rnd (a * a))) <= eps * (3/4)) by (apply rnd_rel; [apply Rabs_le; lra|apply tiny_le; lra]). apply Rabs_le_inv in D2.
      split; auto. rewrite K4. split; [lra|]. rewrite N2_mid by lra. apply Rabs_le. lra.
    - destruct (fsub_spec (fofQ 3 2) (SFabs u) Ft Fa) as (K1 & K2); [rewrite Ea, Et; fold a; eapply big; [apply Rabs_le; instantiate (1 := 1); lra|apply tiny_le; lra]|]. rewrite Ea, Et in K2. fold a in K2.
      set (d := SFsub fprec femax (fofQ 3 2) (SFabs u)) in *.
      assert (R1 : 0 <= rnd (3/2 - a) <= 1) by (pose proof (rnd_between (3/2 - a) _ _ F0 F1) as Q; rewrite Z0, E1 in Q; apply Q; lra).
      assert (D1 : Rabs (rnd (3/2 - a) - (3/2 - a)) <= eps * 1) by (apply rnd_rel; [apply Rabs_le; lra|apply tiny_le; lra]). apply Rabs_le_inv in D1. rewrite <- K2 in R1, D1. set (dv := fval d) in *.
      destruct (fmul_spec (fofQ 1 2) d Fh K1) as (K3 & K4); [rewrite Eh; eapply big; [apply Rabs_le; instantiate (1 := 1); unfold dv in *; lra|apply tiny_le; lra]|]. rewrite Eh in K4. fold dv in K4.
      assert (R2 : 0 <= rnd (1/2 * dv) <= 1/2) by (pose proof (rnd_between (1/2 * dv) _ _ F0 Fh) as Q; rewrite Z0, Eh in Q; apply Q; lra).
      assert (D2 : Rabs (rnd (1/2 * dv) - 1/2 * dv) <= eps * (1/2)) by (apply rnd_rel; [apply Rabs_le; lra|apply tiny_le; lra]). apply Rabs_le_inv in D2. rewrite <- K4 in R2, D2. set (q := fval (SFmul fprec femax (fofQ 1 2) d)) in *.
      assert (S : 0 <= q * dv <= 1/2) by nra.
      destruct (fmul_spec (SFmul fprec femax (fofQ 1 2) d) d K3 K1) as (K5 & K6); [fold q dv; eapply big; [apply Rabs_le; instantiate (1 := 1); lra|apply tiny_le; lra]|]. fold q dv in K6.
      assert (R3 : 0 <= rnd (q * dv) <= 1/2) by (pose proof (rnd_between (q * dv) _ _ F0 Fh) as Q; rewrite Z0, Eh in Q; apply Q; lra).
      assert (D3 : Rabs (rnd (q * dv) - q * dv) <= eps * (1/2)) by (apply rnd_rel; [apply Rabs_le; lra|apply tiny_le; lra]). apply Rabs_le_inv in D3.
      split; auto. rewrite K6. split; [lra|]. rewrite N2_right by lra. set (b := 3/2 - a) in *.
      assert (T1 : - (eps * (1/2)) <= (q - 1/2 * dv) * dv <= eps * (1/2)) by (split; nra).
      assert (T2 : - eps <= 1/2 * (dv - b) * (dv + b) <= eps) by (unfold b in *; split; nra).
      apply Rabs_le. replace (rnd (q * dv) - 1/2 * b * b) with ((rnd (q * dv) - q * dv) + (q - 1/2 * dv) * dv + 1/2 * (dv - b) * (dv + b)) by field. lra.
    - change (nofZ 0) with (fofQ 0 1). cbn [fofQ]. split; [split; reflexivity|]. rewrite Z0. split; [lra|]. rewrite N2_out by lra. rewrite Rminus_diag_eq, Rabs_R0 by auto. lra.
  Qed.
End Kernel.

(** ** Weights of the four nodes of one axis *)
Lemma mul_unit : forall x y, ffin x -> ffin y -> 0 <= fval x <= 1 -> 0 <= fval y <= 1 ->
  ffin (SFmul fprec femax x y) /\ 0 <= fval (SFmul fprec femax x y) <= 1 /\ Rabs (fval (SFmul fprec femax x y) - fval x * fval y) <= eps.
Proof.
  intros x y Fx Fy Bx By. assert (S : 0 <= fval x * fval y <= 1) by nra.
  destruct (fmul_spec x y Fx Fy) as (K1 & K2); [eapply big; [apply Rabs_le; instantiate (1 := 1); lra|apply tiny_le; lra]|].
  assert (F0 : ffin (S754_zero false)) by (split; reflexivity). assert (F1 : ffin (fofZ 1) /\ fval (fofZ 1) = 1) by (apply fofZ_spec; lia). destruct F1 as (F1 & E1).
  assert (R1 : 0 <= rnd (fval x * fval y) <= 1) by (pose proof (rnd_between (fval x * fval y) _ _ F0 F1) as Q; rewrite E1 in Q; apply Q; cbn; lra).
  assert (D1 : Rabs (rnd (fval x * fval y) - fval x * fval y) <= eps * 1) by (apply rnd_rel; [apply Rabs_le; lra|apply tiny_le; lra]).
  split; auto. rewrite K2. split; auto. lra.
Qed.
