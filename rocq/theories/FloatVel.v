(** * FloatVel: nodal velocities in double precision: bounds on the rounded sums, in any order. *)
From Coq Require Import ZArith Reals Lra Lia List Bool Floats.SpecFloat Permutation.
From Flocq Require Import Core.
From Verif Require Import Num NumF Tools Lin Types Remesh Transfer Spec SpecF SpecGridF ResProofs PlasticModels LinProofs GridProofs FloatBase FloatGrid FloatKernel FloatPbc FloatSum PropGridF.
Import ListNotations.
Local Open Scope R_scope.

Lemma vgetF : forall (G : Geo F), two_or_threeF G -> forall (f : nat -> F) k, (k < dim)%nat -> vget (vtab f) k = f k.
Proof. intros G [-> | ->] f k Hk; destruct k as [|[|[|k]]]; cbn in Hk; try lia; reflexivity. Qed.
Lemma mulB : forall x y a b, ffin x -> ffin y -> Rabs (fval x) <= a -> Rabs (fval y) <= b -> bpow radix2 (-1000) <= a * b <= bpow radix2 1000 ->
  ffin (SFmul fprec femax x y) /\ Rabs (fval (SFmul fprec femax x y)) <= a * b * (1 + eps).
Proof.
  intros x y a b Fx Fy Ba Bb HB. assert (H : Rabs (fval x * fval y) <= a * b) by (rewrite Rabs_mult; apply Rmult_le_compat; auto; apply Rabs_pos).
  destruct (mul_err x y (a * b) Fx Fy H HB) as (F1 & E1). split; auto. apply Rabs_le_inv in E1, H. apply Rabs_le. lra.
Qed.
Lemma addB : forall x y a b, ffin x -> ffin y -> Rabs (fval x) <= a -> Rabs (fval y) <= b -> a + b <= bpow radix2 1000 ->
  ffin (SFadd fprec femax x y) /\ Rabs (fval (SFadd fprec femax x y)) <= (a + b) * (1 + eps).
Proof.
  intros x y a b Fx Fy Ba Bb HB. pose proof eps_pos as E0. assert (H : Rabs (fval x + fval y) <= a + b) by (eapply Rle_trans; [apply Rabs_triang|]; lra).
  destruct (fadd_spec x y Fx Fy) as (F1 & E1); [eapply big; eauto|]. split; auto. rewrite E1. pose proof (add_rel x y Fx Fy) as E.
  replace (rnd (fval x + fval y)) with ((rnd (fval x + fval y) - (fval x + fval y)) + (fval x + fval y)) by ring. eapply Rle_trans; [apply Rabs_triang|].
  assert (eps / 2 * Rabs (fval x + fval y) <= eps / 2 * (a + b)) by (apply Rmult_le_compat_l; lra). pose proof (Rabs_pos (fval x + fval y)). nra.
Qed.
Lemma pow_bound : forall c, INR c * eps <= 1 -> (1 + 4 * eps) ^ c <= 128.
Proof.
  intros c Hc. pose proof eps_pos as E0. apply Rle_trans with (exp (INR c * (4 * eps))).
  - clear Hc. induction c as [|c IH]; [cbn [pow INR]; rewrite Rmult_0_l, exp_0; lra|]. rewrite S_INR. cbn [pow]. replace ((INR c + 1) * (4 * eps)) with (4 * eps + INR c * (4 * eps)) by ring. rewrite exp_plus.
    apply Rmult_le_compat; [lra|apply pow_le; lra|apply Rlt_le, exp_ineq1; lra|exact IH].
  - apply Rle_trans with (exp 4); [destruct (Rle_lt_or_eq_dec (INR c * (4 * eps)) 4) as [H|H]; [lra|apply Rlt_le, exp_increasing; auto|rewrite H; lra]|].
    replace 4 with (1 + 1 + 1 + 1) by ring. rewrite !exp_plus. pose proof exp_le_3. pose proof (exp_pos 1). assert (exp 1 * exp 1 <= 9) by nra. assert (0 <= exp 1 * exp 1) by nra. nra.
Qed.
Lemma pow_lin : forall c, INR c * eps <= 1/8 -> (1 + 4 * eps) ^ c <= 1 + 8 * INR c * eps.
Proof.
  intros c Hc. pose proof eps_pos as E0. assert (K : (1 + 4 * eps) ^ c * (1 - INR c * (4 * eps)) <= 1).
  { clear Hc. induction c as [|c IH]; [cbn; lra|]. rewrite S_INR. cbn [pow]. pose proof (pow_le (1 + 4 * eps) c ltac:(lra)) as P0. pose proof (pos_INR c). 
    replace ((1 + 4 * eps) * (1 + 4 * eps) ^ c * (1 - (INR c + 1) * (4 * eps))) with ((1 + 4 * eps) ^ c * (1 - INR c * (4 * eps)) - (1 + 4 * eps) ^ c * ((INR c + 1) * (4 * eps) * (4 * eps))) by ring.
    assert (0 <= (1 + 4 * eps) ^ c * ((INR c + 1) * (4 * eps) * (4 * eps))) by (repeat apply Rmult_le_pos; lra). lra. }
  pose proof (pow_le (1 + 4 * eps) c ltac:(lra)) as P0. pose proof (pos_INR c). set (q := (1 + 4 * eps) ^ c) in *. set (t := INR c * eps) in *. assert (T0 : 0 <= t) by (unfold t; apply Rmult_le_pos; lra).
  replace (1 - INR c * (4 * eps)) with (1 - 4 * t) in K by (unfold t; ring). replace (1 + 8 * INR c * eps) with (1 + 8 * t) by (unfold t; ring). nra.
Qed.

Section Vel.
  Variable L : Libm.
  Hint Extern 0 (Num F) => exact (NumF L) : typeclass_instances.
  Context {G : Geo F}.
  Hypothesis HG : two_or_threeF G.
  Variable p : Par F.
  Variable N : nat.
  (** Bounds on the velocities and on the affine part. *)
  Variables V A : R.
  Hypothesis HV : bpow radix2 (-800) <= V <= bpow radix2 400.
  Hypothesis HA : bpow radix2 (-800) <= A <= bpow radix2 400.
  Definition UB_v : R := if nltb (flip_ratio p) (nofZ 0) then V + A else V.
  Definition velQ (c : nat) (nd : Node F) (S : R) : Prop :=
    acc c (nd_m nd) S /\ forall k, (k < dim)%nat -> ffin (vget (nd_v nd) k) /\ Rabs (fval (vget (nd_v nd) k)) <= UB_v * S * (1 + 4 * eps) ^ c.
  Lemma U_range : 0 <= UB_v <= bpow radix2 401.
  Proof.
    pose proof (bpow_ge_0 radix2 (-800)). pose proof (bpow_ge_0 radix2 400). assert (bpow radix2 401 = 2 * bpow radix2 400) by (change 401%Z with (1 + 400)%Z; rewrite bpow_plus; reflexivity). unfold UB_v. destruct (nltb _ _); lra.
  Qed.
  Lemma acc_S : forall c m S, acc c m S -> 0 <= S.
  Proof. intros c m S (_ & [->|H] & _); unfold wm in *; lra. Qed.
  Lemma pow1 : forall c, 1 <= (1 + 4 * eps) ^ c.
  Proof. intros c. pose proof eps_pos. apply pow_R1_Rle. lra. Qed.
  Lemma velQ_mono : forall c d nd S, (c <= d)%nat -> velQ c nd S -> velQ d nd S.
  Proof.
    intros c d nd S H (H1 & H2). split; [now apply acc_mono with c|]. intros k Hk. destruct (H2 k Hk) as (F1 & B1). split; auto. eapply Rle_trans; [exact B1|]. pose proof U_range. pose proof (acc_S _ _ _ H1). pose proof eps_pos.
    apply Rmult_le_compat_l; [apply Rmult_le_pos; lra|]. apply Rle_pow; auto. lra.
  Qed.
  Lemma velQ_zero : velQ 0 zero_node 0.
  Proof.
    split; [exact acc_zero|]. intros k Hk. cbn [zero_node nd_v]. unfold vzero. rewrite vgetF by auto. destruct (fofZ_spec 0 ltac:(lia)) as (F0 & E0). change (@nofZ F (NumF L) 0) with (fofZ 0). split; auto. rewrite E0, Rabs_R0. cbn. lra.
  Qed.
  Lemma room1000 : forall S c, 0 <= S <= bpow radix2 500 -> INR c * eps <= 1 -> 2 * (UB_v * S * (1 + 4 * eps) ^ c) <= bpow radix2 950.
  Proof.
    intros S c HS Hc. pose proof U_range. pose proof (pow_bound c Hc) as P1. pose proof (pow1 c).
    apply Rle_trans with (2 * (bpow radix2 401 * bpow radix2 500 * bpow radix2 7)).
    - apply Rmult_le_compat_l; [lra|]. apply Rmult_le_compat; [apply Rmult_le_pos; lra|lra|apply Rmult_le_compat; lra|]. change (bpow radix2 7) with 128. lra.
    - change 2 with (bpow radix2 1). rewrite <- !bpow_plus. apply bpow_le. lia.
  Qed.
  Lemma velQ_merge : forall c a b S W, velQ c a S -> velQ c b W -> INR c * eps <= 1 -> S + W <= bpow radix2 500 -> velQ (Datatypes.S c) (node_add p a b) (S + W).
  Proof.
    intros c a b S W (A1 & A2) (B1 & B2) Hc HS. pose proof (acc_S _ _ _ A1) as S0. pose proof (acc_S _ _ _ B1) as W0. pose proof U_range as UR. pose proof eps_pos as E0. pose proof (pow1 c) as P1.
    split; [cbn [node_add nd_m]; now apply acc_add|]. intros k Hk. cbn [node_add nd_v]. unfold vadd. rewrite vgetF by auto. change (@nadd F (NumF L)) with (SFadd fprec femax).
    destruct (A2 k Hk) as (F1 & C1). destruct (B2 k Hk) as (F2 & C2).
    pose proof (room1000 (S + W) c ltac:(lra) Hc) as Rm. assert (bpow radix2 950 <= bpow radix2 1000) by (apply bpow_le; lia). pose proof (bpow_gt_0 radix2 950).
    destruct (addB _ _ _ _ F1 F2 C1 C2) as (F3 & C3); [lra|]. split; auto. eapply Rle_trans; [exact C3|]. cbn [pow].
    replace (UB_v * S * (1 + 4 * eps) ^ c + UB_v * W * (1 + 4 * eps) ^ c) with (UB_v * (S + W) * (1 + 4 * eps) ^ c) by ring.
    assert (0 <= UB_v * (S + W) * (1 + 4 * eps) ^ c) by (apply Rmult_le_pos; [apply Rmult_le_pos|]; lra). nra.
  Qed.
  (** Adding one weighted velocity. *)
  Lemma velQ_keeps : forall xp vp B tau mui it, item_ok N it ->
    (forall k, (k < dim)%nat -> ffin (vget vp k) /\ Rabs (fval (vget vp k)) <= V) ->
    (nltb (flip_ratio p) (nofZ 0) = true -> forall k, (k < dim)%nat -> let a := vscale (mvec B (vsub (it_x it) xp)) (apicDinverse p) in ffin (vget a k) /\ Rabs (fval (vget a k)) <= A) ->
    Q_keeps L p velQ xp vp B tau mui it.
  Proof.
    intros xp vp B tau mui it Hi Hv Hb c nd S Ea (H1 & H2) Hc HS. pose proof (acc_S _ _ _ H1) as S0. pose proof U_range as UR. pose proof eps_pos as E0. pose proof (pow1 c) as P1.
    split; [exact (massQ_keeps L p N xp vp B tau mui it Hi c nd S Ea H1 Hc HS)|]. pose proof Hi as (Fw & Bw & _). pose proof (active_w L N it Hi Ea) as Wm. set (w := fval (it_w it)) in *.
    assert (Lo : forall B0, bpow radix2 (-800) <= B0 <= bpow radix2 400 -> bpow radix2 (-1000) <= B0 * w <= bpow radix2 1000).
    { intros B0 HB. pose proof (bpow_gt_0 radix2 (-800)). split.
      - apply Rle_trans with (bpow radix2 (-800) * bpow radix2 (-86)); [rewrite <- bpow_plus; apply bpow_le; lia|]. apply Rmult_le_compat; try apply bpow_ge_0; [lra|]. apply Rle_trans with wm; auto. replace (bpow radix2 (-86)) with (/ 77371252455336267181195264) by (cbn; lra). unfold wm. lra.
      - apply Rle_trans with (bpow radix2 400 * 1); [apply Rmult_le_compat; lra|]. rewrite Rmult_1_r. apply bpow_le. lia. }
    pose proof (room1000 S c ltac:(lra) Hc) as Rm. set (q := (1 + 4 * eps) ^ c) in *.
    assert (B9 : bpow radix2 950 <= bpow radix2 999) by (apply bpow_le; lia). assert (B10 : bpow radix2 1000 = 2 * bpow radix2 999) by (change 1000%Z with (1 + 999)%Z; rewrite bpow_plus; reflexivity).
    assert (B4 : bpow radix2 400 <= bpow radix2 900) by (apply bpow_le; lia). assert (B45 : 16 * bpow radix2 900 <= bpow radix2 950) by (change 16 with (bpow radix2 4); rewrite <- bpow_plus; apply bpow_le; lia). pose proof (bpow_gt_0 radix2 900) as B00.
    intros k Hk. destruct (H2 k Hk) as (F1 & C1). destruct (Hv k Hk) as (Fv & Cv).
    assert (Bw' : Rabs w <= w) by (rewrite Rabs_pos_eq; lra).
    destruct (mulB (vget vp k) (it_w it) V w Fv Fw Cv Bw' (Lo V HV)) as (F2 & C2).
    assert (Hq : 0 <= UB_v * S * q) by (apply Rmult_le_pos; [apply Rmult_le_pos|]; lra). assert (Vw : 0 <= V * w <= bpow radix2 400) by (pose proof (bpow_gt_0 radix2 (-800)); split; nra).
    assert (Ce : V * w * (1 + eps) <= 2 * bpow radix2 900) by (assert (eps <= 1) by (unfold eps; lra); nra).
    destruct (addB _ _ _ _ F1 F2 C1 C2) as (F3 & C3); [lra|].
    cbn [p2g_node nd_v pow]. fold q. unfold UB_v in *. destruct (nltb (flip_ratio p) (nofZ 0)) eqn:Ef.
    - specialize (Hb eq_refl k Hk). cbv zeta in Hb. destruct Hb as (Fa & Ca). destruct (mulB _ (it_w it) A w Fa Fw Ca Bw' (Lo A HA)) as (F4 & C4).
      assert (Aw : 0 <= A * w <= bpow radix2 400) by (pose proof (bpow_gt_0 radix2 (-800)); split; nra).
      assert (Ce' : A * w * (1 + eps) <= 2 * bpow radix2 900) by (assert (eps <= 1) by (unfold eps; lra); nra).
      assert (C3' : ((V + A) * S * q + V * w * (1 + eps)) * (1 + eps) <= 3/2 * ((V + A) * S * q + V * w * (1 + eps))) by (assert (eps <= 1/2) by (unfold eps; lra); assert (0 <= (V + A) * S * q + V * w * (1 + eps)) by nra; nra).
      destruct (addB _ _ _ _ F3 F4 C3 C4) as (F5 & C5); [lra|].
      unfold vadd, vscale. repeat (rewrite vgetF by auto). unfold vscale in F5, C5. rewrite vgetF in F5, C5 by auto.
      split; [exact F5|]. eapply Rle_trans; [exact C5|].
      assert (e1 : (1 + eps) * (1 + eps) <= 1 + 4 * eps) by (unfold eps; lra). assert (e2 : (1 + eps) * (1 + eps) * (1 + eps) <= 1 + 4 * eps) by (unfold eps; lra).
      assert (T1 : (V + A) * S * q * ((1 + eps) * (1 + eps)) <= (V + A) * S * q * (1 + 4 * eps)) by (apply Rmult_le_compat_l; auto).
      assert (T2 : V * w * ((1 + eps) * (1 + eps) * (1 + eps)) <= V * w * (1 + 4 * eps)) by (apply Rmult_le_compat_l; lra).
      assert (T3 : A * w * ((1 + eps) * (1 + eps)) <= A * w * (1 + 4 * eps)) by (apply Rmult_le_compat_l; lra).
      assert (T4 : (V + A) * w * (1 + 4 * eps) <= (V + A) * w * (1 + 4 * eps) * q) by (assert (0 <= (V + A) * w * (1 + 4 * eps)) by (assert (0 <= V * w + A * w) by lra; nra); nra).
      replace ((V + A) * (S + w) * ((1 + 4 * eps) * q)) with ((V + A) * S * q * (1 + 4 * eps) + (V + A) * w * (1 + 4 * eps) * q) by ring. lra.
    - unfold vadd, vscale. repeat (rewrite vgetF by auto). split; [exact F3|]. eapply Rle_trans; [exact C3|].
      assert (e1 : (1 + eps) * (1 + eps) <= 1 + 4 * eps) by (unfold eps; lra).
      assert (T1 : V * S * q * (1 + eps) <= V * S * q * (1 + 4 * eps)) by (apply Rmult_le_compat_l; lra).
      assert (T2 : V * w * ((1 + eps) * (1 + eps)) <= V * w * (1 + 4 * eps)) by (apply Rmult_le_compat_l; lra).
      assert (T4 : V * w * (1 + 4 * eps) <= V * w * (1 + 4 * eps) * q) by (assert (0 <= V * w * (1 + 4 * eps)) by nra; nra).
      replace (V * (S + w) * ((1 + 4 * eps) * q)) with (V * S * q * (1 + 4 * eps) + V * w * (1 + 4 * eps) * q) by ring. lra.
  Qed.
  (** Averages. *)
  Lemma finish_vel : forall c nd S, velQ c nd S -> INR c * eps <= 1/16 -> S <= bpow radix2 500 -> forall k, (k < dim)%nat ->
    ffin (vget (nd_v (p2g_finish_node p nd)) k) /\ Rabs (fval (vget (nd_v (p2g_finish_node p nd)) k)) <= UB_v * (1 + (12 * INR c + 2) * eps).
  Proof.
    intros c nd S (H1 & H2) Hc HS k Hk. pose proof (acc_S _ _ _ H1) as S0. pose proof U_range as UR. pose proof eps_pos as E0. pose proof (pos_INR c) as C0.
    cbn [p2g_finish_node nd_v]. destruct H1 as (Fm & Z & Em). destruct (fofZ_spec 0 ltac:(lia)) as (F0 & V0). change (@nofZ F (NumF L) 0) with (fofZ 0).
    change (nltb (fofZ 0) (nd_m nd)) with (SFltb (fofZ 0) (nd_m nd)). rewrite flt_spec by auto. rewrite V0.
    set (t := INR c * eps) in *. assert (T0 : 0 <= t) by (unfold t; apply Rmult_le_pos; lra).
    destruct (Rlt_bool_spec 0 (fval (nd_m nd))) as [Pm|Pm].
    - assert (Sp : wm <= S) by (destruct Z as [->|Z]; auto; rewrite Rmult_0_r, Rminus_0_r in Em; apply Rabs_le_inv in Em; lra). assert (S1 : 0 < S) by (unfold wm in Sp; lra).
      unfold vdivs. rewrite vgetF by auto. change (@ndiv F (NumF L)) with (SFdiv fprec femax). destruct (H2 k Hk) as (F1 & C1).
      assert (Hm : (1 - t) * S <= fval (nd_m nd)) by (apply Rabs_le_inv in Em; nra).
      pose proof (pow_lin c ltac:(fold t; lra)) as PL. replace (8 * INR c * eps) with (8 * t) in PL by (unfold t; ring).
      assert (Bq : Rabs (fval (vget (nd_v nd) k) / fval (nd_m nd)) <= UB_v * (1 + 12 * t)).
      { unfold Rdiv. rewrite Rabs_mult, (Rabs_pos_eq (/ _)) by (apply Rlt_le, Rinv_0_lt_compat; auto). apply Rmult_le_reg_r with (fval (nd_m nd)); auto. rewrite Rmult_assoc, Rinv_l, Rmult_1_r by lra.
        eapply Rle_trans; [exact C1|]. apply Rle_trans with (UB_v * (1 + 12 * t) * ((1 - t) * S)).
        - replace (UB_v * (1 + 12 * t) * ((1 - t) * S)) with (UB_v * S * ((1 + 12 * t) * (1 - t))) by ring. apply Rmult_le_compat_l; [apply Rmult_le_pos; lra|]. nra.
        - apply Rmult_le_compat_l; auto. apply Rmult_le_pos; lra. }
      assert (Bu : UB_v * (1 + 12 * t) <= bpow radix2 1000). { apply Rle_trans with (bpow radix2 401 * 2); [apply Rmult_le_compat; lra|]. change 2 with (bpow radix2 1). rewrite <- bpow_plus. apply bpow_le. lia. }
      destruct (fdiv_spec (vget (nd_v nd) k) (nd_m nd) F1 Fm) as (F2 & E2); [lra|eapply big; eauto|]. split; auto. rewrite E2.
      assert (Ul : bpow radix2 (-800) <= UB_v) by (unfold UB_v; pose proof (bpow_gt_0 radix2 (-800)); destruct (nltb _ _); lra).
      pose proof (rnd_rel _ _ Bq) as Er. assert (Hl : bpow radix2 (-1000) <= UB_v * (1 + 12 * t)) by (apply Rle_trans with (bpow radix2 (-800)); [apply bpow_le; lia|]; nra). specialize (Er Hl).
      apply Rabs_le_inv in Er, Bq. replace (UB_v * (1 + (12 * INR c + 2) * eps)) with (UB_v * (1 + 12 * t) + 2 * (eps * UB_v)) by (unfold t; ring).
      assert (eps * (UB_v * (1 + 12 * t)) <= 2 * (eps * UB_v)) by (assert (0 <= eps * UB_v) by (apply Rmult_le_pos; lra); nra). apply Rabs_le. lra.
    - unfold vzero. rewrite vgetF by auto. change (@nofZ F (NumF L) 0) with (fofZ 0). split; auto. rewrite V0, Rabs_R0. apply Rmult_le_pos; [lra|]. assert (0 <= (12 * INR c + 2) * eps) by (apply Rmult_le_pos; lra). lra.
  Qed.
End Vel.
