(** * FloatBase: the binary64 operations of NumF and rounding, through Flocq. *)
From Coq Require Import ZArith Reals Lra Lia Bool Floats.SpecFloat.
From Flocq Require Import Core Relative BinarySingleNaN.
From Verif Require Import NumF SpecF.
Local Open Scope R_scope.

#[global] Instance Hprec : FLX.Prec_gt_0 53 := eq_refl _.
#[global] Instance Hmax : Prec_lt_emax 53 1024 := eq_refl _.
Notation fx := (SpecFloat.fexp 53 1024).
Definition rnd (x : R) : R := round radix2 fx ZnearestE x.
Definition fmax : R := bpow radix2 1024.

(** ** SpecFloat and Flocq (after Flocq's IEEE754/PrimFloat.v, without primitive floats) *)
Lemma rne_equiv s m l : round_nearest_even m l = choice_mode mode_NE s m l.
Proof. case l; [reflexivity|intro c]. case c; [|reflexivity..]. now simpl; unfold Round.cond_incr; case Z.even. Qed.
Lemma raux_equiv sx mx ex lx : SpecFloat.binary_round_aux 53 1024 sx mx ex lx = binary_round_aux 53 1024 mode_NE sx mx ex lx.
Proof. unfold SpecFloat.binary_round_aux, binary_round_aux. set (q := shr_fexp _ _ _ _ _). case q; intros q' e'; simpl. now rewrite (rne_equiv sx). Qed.
Lemma round_equiv s m e : SpecFloat.binary_round 53 1024 s m e = binary_round 53 1024 mode_NE s m e.
Proof. unfold SpecFloat.binary_round, binary_round, shl_align_fexp. set (q := shl_align _ _ _); case q as [mz ez]. apply raux_equiv. Qed.
Lemma norm_equiv m e z : SpecFloat.binary_normalize 53 1024 m e z = B2SF (binary_normalize 53 1024 Hprec Hmax mode_NE m e z).
Proof. case m as [|p|p]; [now simpl| |]; simpl; rewrite B2SF_SF2B; apply round_equiv. Qed.

Lemma add_equiv : forall x y : binary_float 53 1024, SFadd 53 1024 (B2SF x) (B2SF y) = B2SF (Bplus mode_NE x y).
Proof. intros [sx|sx| |sx mx ex Bx] [sy|sy| |sy my ey By]; [now (trivial || simpl; case Bool.eqb).. |]. apply norm_equiv. Qed.
Lemma sub_equiv : forall x y : binary_float 53 1024, SFsub 53 1024 (B2SF x) (B2SF y) = B2SF (Bminus mode_NE x y).
Proof.
  intros [sx|sx| |sx mx ex Bx] [sy|sy| |sy my ey By]; [now (trivial || simpl; case Bool.eqb).. |].
  simpl. unfold Zminus. rewrite <- cond_Zopp_negb. apply norm_equiv.
Qed.
Lemma mul_equiv : forall x y : binary_float 53 1024, SFmul 53 1024 (B2SF x) (B2SF y) = B2SF (Bmult mode_NE x y).
Proof. intros [sx|sx| |sx mx ex Bx] [sy|sy| |sy my ey By]; [now trivial.. |]. simpl. rewrite B2SF_SF2B. apply raux_equiv. Qed.
Lemma div_equiv : forall x y : binary_float 53 1024, SFdiv 53 1024 (B2SF x) (B2SF y) = B2SF (Bdiv mode_NE x y).
Proof.
  intros [sx|sx| |sx mx ex Bx] [sy|sy| |sy my ey By]; [now (trivial || simpl; case Bool.eqb).. |].
  simpl. rewrite B2SF_SF2B. set (q := SFdiv_core_binary _ _ _ _ _ _). case q as [[mz ez] lz]. apply raux_equiv.
Qed.
Lemma cmp_equiv : forall x y : binary_float 53 1024, SFcompare (B2SF x) (B2SF y) = Bcompare x y.
Proof. intros [sx|sx| |sx mx ex Bx] [sy|sy| |sy my ey By]; reflexivity. Qed.

(** ** Numbers *)
Lemma fin_B : forall x, ffin x -> exists b : binary_float 53 1024, x = B2SF b /\ is_finite b = true /\ B2R b = fval x.
Proof. intros x (V & Fi). exists (SF2B x V). rewrite B2SF_SF2B, is_finite_SF2B, B2R_SF2B. auto. Qed.
Lemma B_fin : forall b : binary_float 53 1024, is_finite b = true -> ffin (B2SF b) /\ fval (B2SF b) = B2R b.
Proof. intros b Hb. split; [split; [apply valid_binary_B2SF|now rewrite is_finite_SF_B2SF]|apply SF2R_B2SF]. Qed.

Lemma fadd_spec : forall x y, ffin x -> ffin y -> Rabs (rnd (fval x + fval y)) < fmax ->
  ffin (SFadd fprec femax x y) /\ fval (SFadd fprec femax x y) = rnd (fval x + fval y).
Proof.
  intros x y Hx Hy Ho. destruct (fin_B x Hx) as (a & -> & Fa & Ea). destruct (fin_B y Hy) as (b & -> & Fb & Eb). rewrite <- Ea, <- Eb in *.
  change fprec with 53%Z. change femax with 1024%Z. rewrite add_equiv. pose proof (Bplus_correct 53 1024 _ _ mode_NE a b Fa Fb) as K.
  rewrite Rlt_bool_true in K by exact Ho. destruct K as (K1 & K2 & _). destruct (B_fin _ K2) as (Q1 & Q2). split; auto. rewrite Q2. exact K1.
Qed.
Lemma fsub_spec : forall x y, ffin x -> ffin y -> Rabs (rnd (fval x - fval y)) < fmax ->
  ffin (SFsub fprec femax x y) /\ fval (SFsub fprec femax x y) = rnd (fval x - fval y).
Proof.
  intros x y Hx Hy Ho. destruct (fin_B x Hx) as (a & -> & Fa & Ea). destruct (fin_B y Hy) as (b & -> & Fb & Eb). rewrite <- Ea, <- Eb in *.
  change fprec with 53%Z. change femax with 1024%Z. rewrite sub_equiv. pose proof (Bminus_correct 53 1024 _ _ mode_NE a b Fa Fb) as K.
  rewrite Rlt_bool_true in K by exact Ho. destruct K as (K1 & K2 & _). destruct (B_fin _ K2) as (Q1 & Q2). split; auto. rewrite Q2. exact K1.
Qed.
Lemma fmul_spec : forall x y, ffin x -> ffin y -> Rabs (rnd (fval x * fval y)) < fmax ->
  ffin (SFmul fprec femax x y) /\ fval (SFmul fprec femax x y) = rnd (fval x * fval y).
Proof.
  intros x y Hx Hy Ho. destruct (fin_B x Hx) as (a & -> & Fa & Ea). destruct (fin_B y Hy) as (b & -> & Fb & Eb). rewrite <- Ea, <- Eb in *.
  change fprec with 53%Z. change femax with 1024%Z. rewrite mul_equiv. pose proof (Bmult_correct 53 1024 _ _ mode_NE a b) as K.
  rewrite Rlt_bool_true in K by exact Ho. destruct K as (K1 & K2 & _). rewrite Fa, Fb in K2. destruct (B_fin _ K2) as (Q1 & Q2). split; auto. rewrite Q2. exact K1.
Qed.
Lemma fdiv_spec : forall x y, ffin x -> ffin y -> fval y <> 0 -> Rabs (rnd (fval x / fval y)) < fmax ->
  ffin (SFdiv fprec femax x y) /\ fval (SFdiv fprec femax x y) = rnd (fval x / fval y).
Proof.
  intros x y Hx Hy Hn Ho. destruct (fin_B x Hx) as (a & -> & Fa & Ea). destruct (fin_B y Hy) as (b & -> & Fb & Eb). rewrite <- Ea, <- Eb in *.
  change fprec with 53%Z. change femax with 1024%Z. rewrite div_equiv. pose proof (Bdiv_correct 53 1024 _ _ mode_NE a b Hn) as K.
  rewrite Rlt_bool_true in K by exact Ho. destruct K as (K1 & K2 & _). rewrite Fa in K2. destruct (B_fin _ K2) as (Q1 & Q2). split; auto. rewrite Q2. exact K1.
Qed.
Lemma fcmp : forall x y, ffin x -> ffin y -> SFcompare x y = Some (Rcompare (fval x) (fval y)).
Proof.
  intros x y Hx Hy. destruct (fin_B x Hx) as (a & -> & Fa & Ea). destruct (fin_B y Hy) as (b & -> & Fb & Eb). rewrite <- Ea, <- Eb, cmp_equiv. now apply Bcompare_correct.
Qed.
Lemma flt_spec : forall x y, ffin x -> ffin y -> SFltb x y = Rlt_bool (fval x) (fval y).
Proof. intros x y Hx Hy. unfold SFltb. rewrite fcmp by auto. unfold Rlt_bool. destruct (Rcompare _ _); reflexivity. Qed.
Lemma fle_spec : forall x y, ffin x -> ffin y -> SFleb x y = Rle_bool (fval x) (fval y).
Proof. intros x y Hx Hy. unfold SFleb. rewrite fcmp by auto. unfold Rle_bool. destruct (Rcompare _ _); reflexivity. Qed.
Lemma fabs_spec : forall x, ffin x -> ffin (SFabs x) /\ fval (SFabs x) = Rabs (fval x).
Proof.
  intros x (V & Fi). destruct x as [s|s| |s m e]; try discriminate; cbn.
  - split; [split; reflexivity|]. unfold fval, SF2R. now rewrite Rabs_R0.
  - split; [split; [exact V|reflexivity]|]. unfold fval, SF2R. rewrite <- F2R_Zabs. f_equal. destruct s; reflexivity.
Qed.
Lemma fofZ_spec : forall z, (Z.abs z <= 2 ^ 53)%Z -> ffin (fofZ z) /\ fval (fofZ z) = IZR z.
Proof.
  intros z Hz. unfold fofZ. change fprec with 53%Z. change femax with 1024%Z. rewrite norm_equiv.
  pose proof (binary_normalize_correct 53 1024 Hprec Hmax mode_NE z 0 false) as K. cbv zeta in K.
  assert (E : F2R (Float radix2 z 0) = IZR z) by (unfold F2R; cbn; ring).
  assert (Ge : round radix2 fx (round_mode mode_NE) (IZR z) = IZR z).
  { apply round_generic; [apply valid_rnd_N|]. rewrite <- E. destruct (Z.eq_dec (Z.abs z) (2 ^ 53)) as [Q|Q].
    - assert (B : IZR (2 ^ 53) = bpow radix2 53) by (rewrite <- (IZR_Zpower radix2 53) by lia; reflexivity).
      assert (Gp : generic_format radix2 fx (bpow radix2 53)) by (apply generic_format_bpow; vm_compute; discriminate).
      rewrite E. destruct (Z.abs_spec z) as [(_ & Q')|(_ & Q')].
      + replace z with (2 ^ 53)%Z by lia. now rewrite B.
      + replace z with (- (2 ^ 53))%Z by lia. rewrite opp_IZR, B. now apply generic_format_opp.
    - apply generic_format_FLT. exists (Float radix2 z 0); cbn; [reflexivity|lia|unfold SpecFloat.emin; lia]. }
  rewrite E, Ge in K. rewrite Rlt_bool_true in K.
  - destruct K as (K1 & K2 & _). destruct (B_fin _ K2) as (Q1 & Q2). split; auto. rewrite Q2. exact K1.
  - rewrite <- abs_IZR. apply Rle_lt_trans with (IZR (2 ^ 53)); [now apply IZR_le|]. rewrite <- (IZR_Zpower radix2 53) || idtac. change (2 ^ 53)%Z with (Zpower radix2 53). rewrite IZR_Zpower by lia. apply bpow_lt. lia.
Qed.
(** Decimal literals are correctly rounded. *)
Lemma fofQ_spec : forall n d, Rabs (rnd (IZR n / IZR (Zpos d))) < fmax -> ffin (fofQ n d) /\ fval (fofQ n d) = rnd (IZR n / IZR (Zpos d)).
Proof.
  intros n d Ho. destruct n as [|m|m]; unfold fofQ.
  - split; [split; reflexivity|]. unfold Rdiv. rewrite Rmult_0_l. unfold rnd. now rewrite round_0 by apply valid_rnd_N.
  - change fprec with 53%Z. change femax with 1024%Z. pose proof (Bdiv_correct_aux 53 1024 Hprec Hmax mode_NE false m 0 false d 0) as K. cbv zeta in K.
    destruct (SFdiv_core_binary 53 1024 (Zpos m) 0 (Zpos d) 0) as [[q e] l] eqn:Eq. rewrite raux_equiv. cbn [xorb] in K. destruct K as (V & K).
    replace (F2R (Float radix2 (cond_Zopp false (Z.pos m)) 0) / F2R (Float radix2 (cond_Zopp false (Z.pos d)) 0)) with (IZR (Zpos m) / IZR (Zpos d)) in K by (unfold F2R; cbn [cond_Zopp Fnum Fexp bpow]; field; apply not_0_IZR; discriminate).
    rewrite Rlt_bool_true in K by exact Ho. destruct K as (K1 & K2 & _). split; [split; assumption|exact K1].
  - change fprec with 53%Z. change femax with 1024%Z. pose proof (Bdiv_correct_aux 53 1024 Hprec Hmax mode_NE true m 0 false d 0) as K. cbv zeta in K.
    destruct (SFdiv_core_binary 53 1024 (Zpos m) 0 (Zpos d) 0) as [[q e] l] eqn:Eq. rewrite raux_equiv. cbn [xorb] in K. destruct K as (V & K).
    replace (F2R (Float radix2 (cond_Zopp true (Z.pos m)) 0) / F2R (Float radix2 (cond_Zopp false (Z.pos d)) 0)) with (IZR (Zneg m) / IZR (Zpos d)) in K by (unfold F2R; cbn [cond_Zopp Fnum Fexp bpow Z.opp]; field; apply not_0_IZR; discriminate).
    rewrite Rlt_bool_true in K by exact Ho. destruct K as (K1 & K2 & _). split; [split; assumption|exact K1].
Qed.

(** ** Rounding *)
Lemma rnd_mono : forall x y, x <= y -> rnd x <= rnd y.
Proof. intros. apply round_le; auto; [apply fexp_correct; exact Hprec|apply valid_rnd_N]. Qed.
Lemma rnd_id : forall x, ffin x -> rnd (fval x) = fval x.
Proof. intros x Hx. destruct (fin_B x Hx) as (b & -> & Fb & Eb). rewrite <- Eb. apply round_generic; [apply valid_rnd_N|apply generic_format_B2R]. Qed.
Lemma rnd_0 : rnd 0 = 0.
Proof. apply round_0, valid_rnd_N. Qed.
Lemma rnd_opp : forall x, rnd (- x) = - rnd x.
Proof. intros. apply round_NE_opp. Qed.
Lemma rnd_abs : forall x, Rabs (rnd x) = rnd (Rabs x).
Proof. intros x. unfold rnd. symmetry. apply round_NE_abs. apply fexp_correct; exact Hprec. Qed.
(** Relative error of an operation, and absolute error near zero. *)
Lemma rnd_err : forall x, Rabs (rnd x - x) <= bpow radix2 (-53) * Rabs x + bpow radix2 (-1075).
Proof.
  intros x. destruct (error_N_FLT radix2 (-1074) 53 eq_refl (fun z => negb (Z.even z)) x) as (eps & eta & H1 & H2 & _ & E).
  change (round radix2 (FLT_exp (-1074) 53) (Znearest (fun z => negb (Z.even z))) x) with (rnd x) in E. rewrite E.
  replace (x * (1 + eps) + eta - x) with (x * eps + eta) by ring. eapply Rle_trans; [apply Rabs_triang|]. rewrite Rabs_mult. apply Rplus_le_compat.
  - rewrite Rmult_comm. apply Rmult_le_compat_r; [apply Rabs_pos|]. eapply Rle_trans; [exact H1|]. right. unfold u_ro. cbn [Z.opp Z.add]. rewrite <- (bpow_plus radix2 (-1) (-52)) || idtac. cbn; lra.
  - eapply Rle_trans; [exact H2|]. right. replace (/ 2) with (bpow radix2 (-1)) by (cbn; lra). rewrite <- bpow_plus. reflexivity.
Qed.

Lemma rnd_IZR : forall z, (Z.abs z <= 2 ^ 53)%Z -> rnd (IZR z) = IZR z.
Proof. intros z Hz. destruct (fofZ_spec z Hz) as (Q & E). rewrite <- E. now apply rnd_id. Qed.
Lemma nofZ_F : forall L z, (Z.abs z <= 2 ^ 53)%Z -> ffin (@Num.nofZ F (NumF L) z) /\ fval (@Num.nofZ F (NumF L) z) = IZR z.
Proof.
  intros L z Hz. unfold Num.nofZ. cbn [Num.nofQ NumF]. destruct (fofQ_spec z 1) as (Q & E).
  - replace (IZR z / 1) with (IZR z) by field. rewrite rnd_IZR by auto. rewrite <- abs_IZR. apply Rle_lt_trans with (IZR (2 ^ 53)); [now apply IZR_le|].
    change (2 ^ 53)%Z with (Zpower radix2 53). rewrite IZR_Zpower by lia. apply bpow_lt. lia.
  - split; auto. rewrite E. replace (IZR z / 1) with (IZR z) by field. now apply rnd_IZR.
Qed.
(** No overflow below 2^1010. *)
Lemma rnd_small : forall x, Rabs x <= bpow radix2 1010 -> Rabs (rnd x) < fmax.
Proof.
  intros x Hx. rewrite rnd_abs. apply Rle_lt_trans with (rnd (bpow radix2 1010)); [now apply rnd_mono|].
  unfold rnd. rewrite round_generic; [apply bpow_lt; lia|apply valid_rnd_N|]. apply generic_format_bpow. vm_compute. discriminate.
Qed.
