(** * FloatGrid: rounding errors of the grid lines and of cell indices in double precision. *)
From Coq Require Import ZArith Reals Lra Lia List Bool Floats.SpecFloat.
From Flocq Require Import Core BinarySingleNaN.
From Verif Require Import Num NumF Tools Lin Types Remesh Transfer Spec SpecF SpecGridF ResProofs PlasticModels GridProofs FloatBase.
Import ListNotations.
Local Open Scope R_scope.

(** ** One operation *)
Definition eps : R := / 4503599627370496.
Lemma eps_bpow : eps = bpow radix2 (-52).
Proof. unfold eps. cbn. lra. Qed.
Lemma rnd_rel : forall x B, Rabs x <= B -> bpow radix2 (-1000) <= B -> Rabs (rnd x - x) <= eps * B.
Proof.
  intros x B H1 H2. eapply Rle_trans; [apply rnd_err|]. rewrite eps_bpow.
  assert (bpow radix2 (-1075) <= bpow radix2 (-53) * B).
  { eapply Rle_trans; [|apply Rmult_le_compat_l; [apply bpow_ge_0|exact H2]]. rewrite <- bpow_plus. apply bpow_le. lia. }
  assert (bpow radix2 (-53) * Rabs x <= bpow radix2 (-53) * B) by (apply Rmult_le_compat_l; [apply bpow_ge_0|auto]).
  replace (bpow radix2 (-52)) with (2 * bpow radix2 (-53)) by (change 2 with (bpow radix2 1); rewrite <- bpow_plus; reflexivity). lra.
Qed.
Lemma big : forall x B, Rabs x <= B -> B <= bpow radix2 1000 -> Rabs (rnd x) < fmax.
Proof. intros. apply rnd_small. assert (bpow radix2 1000 <= bpow radix2 1010) by (apply bpow_le; lia). lra. Qed.
Lemma add_err : forall x y B, ffin x -> ffin y -> Rabs (fval x + fval y) <= B -> bpow radix2 (-1000) <= B <= bpow radix2 1000 ->
  ffin (SFadd fprec femax x y) /\ Rabs (fval (SFadd fprec femax x y) - (fval x + fval y)) <= eps * B.
Proof. intros x y B Hx Hy H (B1 & B2). destruct (fadd_spec x y Hx Hy) as (A1 & A2); [eapply big; eauto|]. split; auto. rewrite A2. now apply rnd_rel. Qed.
Lemma sub_err : forall x y B, ffin x -> ffin y -> Rabs (fval x - fval y) <= B -> bpow radix2 (-1000) <= B <= bpow radix2 1000 ->
  ffin (SFsub fprec femax x y) /\ Rabs (fval (SFsub fprec femax x y) - (fval x - fval y)) <= eps * B.
Proof. intros x y B Hx Hy H (B1 & B2). destruct (fsub_spec x y Hx Hy) as (A1 & A2); [eapply big; eauto|]. split; auto. rewrite A2. now apply rnd_rel. Qed.
Lemma mul_err : forall x y B, ffin x -> ffin y -> Rabs (fval x * fval y) <= B -> bpow radix2 (-1000) <= B <= bpow radix2 1000 ->
  ffin (SFmul fprec femax x y) /\ Rabs (fval (SFmul fprec femax x y) - (fval x * fval y)) <= eps * B.
Proof. intros x y B Hx Hy H (B1 & B2). destruct (fmul_spec x y Hx Hy) as (A1 & A2); [eapply big; eauto|]. split; auto. rewrite A2. now apply rnd_rel. Qed.

(** ** floor and conversion to an integer *)
Lemma fval_fin : forall s m e, fval (S754_finite s m e) = IZR (sfZ s m) * bpow radix2 e.
Proof. intros [] m e; reflexivity. Qed.
Lemma bpow_neg : forall e, (e < 0)%Z -> bpow radix2 e = / IZR (2 ^ (- e)).
Proof. intros e He. replace e with (- (- e))%Z at 1 by lia. rewrite bpow_opp. f_equal. rewrite <- (IZR_Zpower radix2 (- e)) by lia. reflexivity. Qed.
Lemma ffloor_spec : forall x, ffin x -> ffin (ffloor x) /\ fval (ffloor x) = IZR (Zfloor (fval x)).
Proof.
  intros [s|s| |s m e] (V & Fi); try discriminate.
  - split; [split; auto|]. cbn. unfold fval. cbn. now rewrite (Zfloor_IZR 0).
  - cbn [ffloor]. destruct (Z.leb_spec 0 e) as [He|He].
    + split; [split; auto|]. rewrite fval_fin, <- (IZR_Zpower radix2 e) by lia. rewrite <- mult_IZR, Zfloor_IZR. reflexivity.
    + assert (E : Zfloor (fval (S754_finite s m e)) = (sfZ s m / 2 ^ (- e))%Z).
      { rewrite fval_fin, bpow_neg by lia. apply (Zfloor_div (sfZ s m) (2 ^ (- e))). pose proof (Z.pow_pos_nonneg 2 (- e) ltac:(lia) ltac:(lia)). lia. }
      rewrite E.
      assert (Hm : (Zpos m < 2 ^ 53)%Z).
      { cbn in V. apply Bool.andb_true_iff in V. destruct V as (V & _). unfold canonical_mantissa in V. apply Zeq_bool_eq in V. unfold SpecFloat.fexp, emin in V.
        pose proof (Zpos_digits2_pos m). pose proof (Zdigits_correct radix2 (Zpos m)) as D. rewrite H in V. destruct D as (_ & D). cbn [Z.abs] in D.
        assert (Zdigits radix2 (Zpos m) <= 53)%Z by lia. eapply Z.lt_le_trans; [exact D|]. change (radix2 : Z) with 2%Z. apply (Z.pow_le_mono_r 2); lia. }
      assert (Hp : (1 <= 2 ^ (- e))%Z) by (pose proof (Z.pow_pos_nonneg 2 (- e) ltac:(lia) ltac:(lia)); lia).
      destruct (Z.eqb_spec (sfZ s m / 2 ^ (- e)) 0) as [E0|E0].
      * rewrite E0. split; [split; auto|]. reflexivity.
      * apply fofZ_spec. apply Z.abs_le. assert (- 2 ^ 53 < sfZ s m < 2 ^ 53)%Z by (destruct s; cbn [sfZ]; lia). split.
        -- apply Z.div_le_lower_bound; [lia|]. nia.
        -- apply Z.div_le_upper_bound; [lia|]. nia.
Qed.
Lemma ftrunc_spec : forall x, ffin x -> ftrunc x = Some (Ztrunc (fval x)).
Proof.
  intros [s|s| |s m e] (V & Fi); try discriminate.
  - cbn. unfold fval. cbn. now rewrite (Ztrunc_IZR 0).
  - cbn [ftrunc]. rewrite fval_fin. destruct (Z.leb_spec 0 e) as [He|He].
    + rewrite <- (IZR_Zpower radix2 e) by lia. now rewrite <- mult_IZR, Ztrunc_IZR.
    + rewrite bpow_neg by lia. f_equal. symmetry. apply (Ztrunc_div (sfZ s m) (2 ^ (- e))). pose proof (Z.pow_pos_nonneg 2 (- e) ltac:(lia) ltac:(lia)). lia.
Qed.

(** ** The grid lines: repeated addition of the spacing *)
Section Axis.
  Variable L : Libm.
  Hint Extern 0 (Num F) => exact (NumF L) : typeclass_instances.

  Lemma arange_F : forall fuel v stop h B l, ffin v -> ffin stop -> ffin h -> 0 < fval h ->
    - B <= fval v -> fval stop + fval h <= B -> eps * B <= fval h -> bpow radix2 (-1000) <= B <= bpow radix2 1000 ->
    arange_loop fuel v stop h = Some l ->
    (forall i y, nth_error l i = Some y -> ffin y /\ Rabs (fval y - (fval v + INR i * fval h)) <= INR i * (eps * B) /\ fval v <= fval y < fval stop) /\
    fval stop <= fval v + INR (length l) * (fval h + eps * B).
  Proof.
    intros fuel. induction fuel as [|fuel IH]; intros v stop h B l Fv Fs Fh Hh Hb Hs He HB H; cbn [arange_loop] in H; cbn [nltb NumF] in H; rewrite flt_spec in H by auto; destruct (Rlt_bool_spec (fval v) (fval stop)) as [C|C].
    1: discriminate.
    1,3: injection H as <-; split; [intros [|i] y; discriminate|cbn; lra].
    cbn [nadd NumF] in H. destruct (arange_loop (A := F) fuel (SFadd fprec femax v h) stop h) as [r|] eqn:E; [|discriminate]. injection H as <-.
    destruct (add_err v h B Fv Fh) as (Fn & En); [apply Rabs_le; lra|auto|]. set (v' := SFadd fprec femax v h) in *. apply Rabs_le_inv in En.
    assert (0 <= eps * B) by (pose proof (Rabs_pos (fval v' - (fval v + fval h))); nra || (apply Rmult_le_pos; [unfold eps; lra|lra])).
    destruct (IH v' stop h B r Fn Fs Fh Hh ltac:(lra) Hs He HB E) as (K1 & K2). split.
    - intros [|i] y Hy.
      + injection Hy as <-. split; auto. cbn [INR]. rewrite !Rmult_0_l, Rplus_0_r, Rminus_diag_eq, Rabs_R0 by auto. lra.
      + cbn [nth_error] in Hy. destruct (K1 i y Hy) as (A1 & A2 & A3). split; auto. rewrite S_INR. apply Rabs_le_inv in A2. split; [apply Rabs_le; lra|]. lra.
    - cbn [length]. rewrite S_INR. pose proof (pos_INR (length r)). nra.
  Qed.
  (** The loop ends. *)
  Lemma arange_ends : forall fuel v stop h B, ffin v -> ffin stop -> ffin h -> 0 < fval h ->
    - B <= fval v -> fval stop + fval h <= B -> eps * B <= fval h / 2 -> bpow radix2 (-1000) <= B <= bpow radix2 1000 ->
    fval stop - fval v <= INR fuel * (fval h / 2) -> exists l, arange_loop fuel v stop h = Some l.
  Proof.
    intros fuel. induction fuel as [|fuel IH]; intros v stop h B Fv Fs Fh Hh Hb Hs He HB Hf; cbn [arange_loop]; cbn [nltb NumF]; rewrite flt_spec by auto; destruct (Rlt_bool_spec (fval v) (fval stop)) as [C|C]; eauto.
    - cbn in Hf. lra.
    - cbn [nadd NumF]. destruct (add_err v h B Fv Fh) as (Fn & En); [apply Rabs_le; lra|auto|]. apply Rabs_le_inv in En. rewrite S_INR in Hf.
      destruct (IH (SFadd fprec femax v h) stop h B Fn Fs Fh Hh) as (l & ->); eauto; lra.
  Qed.
End Axis.

(** ** Extremes of a list of finite doubles *)
Section Extremes.
  Variable L : Libm.
  Hint Extern 0 (Num F) => exact (NumF L) : typeclass_instances.
  Lemma max_F : forall xs m, (forall x, In x xs -> ffin x) -> max_elem xs = Ok m -> In m xs /\ forall x, In x xs -> fval x <= fval m.
  Proof.
    intros [|x r] m Hf H; cbn [max_elem] in H; [discriminate|]. apply Ok_inj in H. subst m.
    assert (K : forall l a, (forall z, In z (a :: l) -> ffin z) -> let m := fold_left (fun m y : F => if nltb m y then y else m) l a in In m (a :: l) /\ forall z, In z (a :: l) -> fval z <= fval m); [|now apply K].
    induction l as [|b l IH]; intros a Ha; cbv zeta.
    - cbn. split; auto. intros z [->|[]]; lra.
    - cbn [fold_left]. cbn [nltb NumF]. rewrite flt_spec by (apply Ha; cbn; auto).
      destruct (Rlt_bool_spec (fval a) (fval b)).
      + destruct (IH b) as (I1 & I2); [intros z Hz; apply Ha; right; auto|]. split; [right; auto|]. intros z [->|Hz]; [|now apply I2]. specialize (I2 b (or_introl eq_refl)). cbn [nltb NumF] in I2. lra.
      + destruct (IH a) as (I1 & I2); [intros z [->|Hz]; apply Ha; cbn; auto|]. split; [destruct I1; [left; auto|right; right; auto]|].
        intros z [->|[->|Hz]]; [apply I2; left; auto| |apply I2; right; auto]. specialize (I2 a (or_introl eq_refl)). cbn [nltb NumF] in I2. lra.
  Qed.
  Lemma min_F : forall xs m, (forall x, In x xs -> ffin x) -> min_elem xs = Ok m -> In m xs /\ forall x, In x xs -> fval m <= fval x.
  Proof.
    intros [|x r] m Hf H; cbn [min_elem] in H; [discriminate|]. apply Ok_inj in H. subst m.
    assert (K : forall l a, (forall z, In z (a :: l) -> ffin z) -> let m := fold_left (fun m y : F => if nltb y m then y else m) l a in In m (a :: l) /\ forall z, In z (a :: l) -> fval m <= fval z); [|now apply K].
    induction l as [|b l IH]; intros a Ha; cbv zeta.
    - cbn. split; auto. intros z [->|[]]; lra.
    - cbn [fold_left]. cbn [nltb NumF]. rewrite flt_spec by (apply Ha; cbn; auto).
      destruct (Rlt_bool_spec (fval b) (fval a)).
      + destruct (IH b) as (I1 & I2); [intros z Hz; apply Ha; right; auto|]. split; [right; auto|]. intros z [->|Hz]; [|now apply I2]. specialize (I2 b (or_introl eq_refl)). cbn [nltb NumF] in I2. lra.
      + destruct (IH a) as (I1 & I2); [intros z [->|Hz]; apply Ha; cbn; auto|]. split; [destruct I1; [left; auto|right; right; auto]|].
        intros z [->|[->|Hz]]; [apply I2; left; auto| |apply I2; right; auto]. specialize (I2 a (or_introl eq_refl)). cbn [nltb NumF] in I2. lra.
  Qed.
End Extremes.

(** ** Distances in cells *)
Section Cells.
  Variable L : Libm.
  Hint Extern 0 (Num F) => exact (NumF L) : typeclass_instances.
  Context {G : Geo F}.
  Variable p : Par F.
  Variable M : R.
  Hypothesis HM : 1 <= M <= 1048576.
  Hypothesis Hd : ffin (dx p) /\ bpow radix2 (-900) <= fval (dx p) <= bpow radix2 900.
  Let h := fval (dx p).

  Lemma eps_pos : 0 < eps. Proof. unfold eps. lra. Qed.
  Lemma h_pos : 0 < h. Proof. destruct Hd as (_ & A & _). eapply Rlt_le_trans; [apply (bpow_gt_0 radix2 (-900))|exact A]. Qed.
  Lemma inb : forall c, 1 <= c <= 1073741824 -> bpow radix2 (-1000) <= c * h <= bpow radix2 1000.
  Proof.
    intros c Hc. destruct Hd as (_ & A & B). fold h in A, B. pose proof h_pos. split.
    - apply Rle_trans with h; [|nra]. eapply Rle_trans; [|exact A]. apply bpow_le. lia.
    - apply Rle_trans with (bpow radix2 30 * bpow radix2 900).
      + apply Rmult_le_compat; try lra. change (c <= 1073741824). lra.
      + rewrite <- bpow_plus. apply bpow_le. lia.
  Qed.
  Lemma inb1 : forall c, 1 <= c <= 1073741824 -> bpow radix2 (-1000) <= c <= bpow radix2 1000.
  Proof.
    intros c Hc. split.
    - apply Rle_trans with (bpow radix2 0); [apply bpow_le; lia|]. change (1 <= c). lra.
    - apply Rle_trans with (bpow radix2 30); [|apply bpow_le; lia]. change (c <= 1073741824). lra.
  Qed.
  Lemma inv_h : ffin (one_over_dx p) /\ Rabs (fval (one_over_dx p) - / h) <= eps * / h.
  Proof.
    pose proof h_pos as P. destruct Hd as (Fd & A & B). fold h in A, B. unfold one_over_dx. cbn [ndiv NumF].
    destruct (nofZ_F L 1 ltac:(cbn; lia)) as (F1 & E1).
    assert (I : bpow radix2 (-1000) <= / h <= bpow radix2 1000).
    { split.
      - apply Rle_trans with (/ bpow radix2 900); [rewrite <- bpow_opp; apply bpow_le; lia|]. apply Rinv_le; auto.
      - apply Rle_trans with (/ bpow radix2 (-900)); [apply Rinv_le; auto; apply bpow_gt_0|]. rewrite <- bpow_opp; apply bpow_le; lia. }
    assert (E : fval (@nofZ F (NumF L) 1) / fval (dx p) = / h) by (rewrite E1; unfold Rdiv; rewrite Rmult_1_l; reflexivity).
    assert (Ih : Rabs (/ h) <= / h) by (rewrite Rabs_pos_eq; [lra|]; apply Rlt_le, Rinv_0_lt_compat; auto).
    destruct (fdiv_spec (@nofZ F (NumF L) 1) (dx p) F1 Fd) as (K1 & K2); [fold h; lra|rewrite E; eapply big; [exact Ih|apply I]|].
    split; [exact K1|]. rewrite E in K2. change (Rabs (fval (SFdiv fprec femax (@nofZ F (NumF L) 1) (dx p)) - / h) <= eps * / h). rewrite K2. apply rnd_rel; [exact Ih|apply I].
  Qed.
  (** (x - y) * one_over_dx *)
  Lemma scaled : forall x y, ffin x -> ffin y -> Rabs (fval x) <= (M + 6) * h -> Rabs (fval y) <= (M + 6) * h ->
    let u := nmul (nsub x y) (one_over_dx p) in ffin u /\ Rabs (fval u - (fval x - fval y) / h) <= eps * (8 * (M + 6)).
  Proof.
    intros x y Fx Fy Bx By. cbv zeta. pose proof h_pos as P. pose proof eps_pos as E0. apply Rabs_le_inv in Bx, By.
    destruct (sub_err x y (2 * (M + 6) * h) Fx Fy) as (F1 & E1); [apply Rabs_le; lra|apply inb; lra|].
    destruct inv_h as (F2 & E2). cbn [nmul nsub NumF]. set (s := SFsub fprec femax x y) in *. set (r := one_over_dx p) in *.
    set (w := (fval x - fval y) / h). assert (Ew : fval x - fval y = w * h) by (unfold w; field; lra).
    assert (Bw : -(2 * (M + 6)) <= w <= 2 * (M + 6)) by (split; apply Rmult_le_reg_r with h; lra).
    set (a := fval s / h). assert (Ea : fval s = a * h) by (unfold a; field; lra).
    set (q := fval r * h). assert (Eq : fval r = q / h) by (unfold q; field; lra).
    assert (Da : Rabs (a - w) <= eps * (2 * (M + 6))).
    { rewrite Ea, Ew in E1. apply Rmult_le_reg_r with h; auto. rewrite <- (Rabs_pos_eq h) at 1 by lra. rewrite <- Rabs_mult. replace ((a - w) * h) with (a * h - w * h) by ring. lra. }
    assert (Dq : Rabs (q - 1) <= eps).
    { rewrite Eq in E2. apply Rmult_le_reg_r with (/ h); [now apply Rinv_0_lt_compat|]. rewrite <- (Rabs_pos_eq (/ h)) at 1 by (apply Rlt_le; now apply Rinv_0_lt_compat). rewrite <- Rabs_mult. replace ((q - 1) * / h) with (q / h - / h) by (field; lra). lra. }
    apply Rabs_le_inv in Da, Dq.
    assert (Es : eps * (2 * (M + 6)) <= 1 / 1000000) by (unfold eps; lra).
    assert (Es2 : eps <= 1 / 1000000) by (unfold eps; lra).
    assert (Epr : fval s * fval r = a * q) by (rewrite Ea, Eq; field; lra).
    assert (D1 : Rabs (a * q - w) <= eps * (5 * (M + 6))).
    { replace (a * q - w) with ((a - w) * q + w * (q - 1)) by ring. eapply Rle_trans; [apply Rabs_triang|]. rewrite !Rabs_mult.
      assert (Rabs (a - w) <= eps * (2 * (M + 6))) by (apply Rabs_le; lra). assert (Rabs q <= 5/4) by (apply Rabs_le; lra).
      assert (Rabs w <= 2 * (M + 6)) by (apply Rabs_le; lra). assert (Rabs (q - 1) <= eps) by (apply Rabs_le; lra).
      assert (Rabs (a - w) * Rabs q <= eps * (2 * (M + 6)) * (5/4)) by (apply Rmult_le_compat; auto; apply Rabs_pos).
      assert (Rabs w * Rabs (q - 1) <= 2 * (M + 6) * eps) by (apply Rmult_le_compat; auto; apply Rabs_pos). lra. }
    apply Rabs_le_inv in D1. assert (Es3 : eps * (5 * (M + 6)) <= 1 / 1000000) by (unfold eps; lra).
    destruct (mul_err s r (3 * (M + 6)) F1 F2) as (F3 & E3); [rewrite Epr; apply Rabs_le; lra|apply inb1; lra|]. split; auto. rewrite Epr in E3. apply Rabs_le_inv in E3. apply Rabs_le. lra.
  Qed.

  (** Base indices. *)
  Lemma base_F : forall (a : Axis F) x, ffin x -> ffin (ax_c a) -> Rabs (fval x) <= (M + 6) * h -> Rabs (fval (ax_c a)) <= (M + 6) * h ->
    1 + eps * (8 * (M + 6)) <= (fval x - fval (ax_c a)) / h ->
    exists b : Z, base_p2g p a x = Ok b /\ base_g2p p a x = Ok b /\ (0 <= b)%Z /\
      IZR b + 1 - eps * (8 * (M + 6)) <= (fval x - fval (ax_c a)) / h <= IZR b + 2 + eps * (8 * (M + 6)).
  Proof.
    intros a x Fx Fc Bx Bc Hlo. destruct (scaled x (ax_c a) Fx Fc Bx Bc) as (Fu & Eu). pose proof h_pos as P.
    set (u := nmul (nsub x (ax_c a)) (one_over_dx p)) in *. set (w := (fval x - fval (ax_c a)) / h) in *.
    assert (Es : eps * (8 * (M + 6)) <= 1 / 16) by (unfold eps; lra). apply Rabs_le_inv in Eu.
    assert (Bw : w <= 2 * (M + 6)).
    { apply Rabs_le_inv in Bx, Bc. unfold w. apply Rmult_le_reg_r with h; auto. replace ((fval x - fval (ax_c a)) / h * h) with (fval x - fval (ax_c a)) by (field; lra). lra. }
    destruct (ffloor_spec u Fu) as (Ff & Ef). pose proof (Zfloor_bounds (fval u)) as (B1 & B2). set (z := Zfloor (fval u)) in *.
    assert (Hz : (1 <= z <= 3000000)%Z).
    { split; [assert (0 < z)%Z by (apply lt_IZR; lra); lia|]. apply le_IZR. lra. }
    exists (z - 1)%Z. split; [|split; [|split; [lia|rewrite minus_IZR; lra]]].
    - unfold base_p2g. fold u. cbn [nfloor NumF]. unfold to_int. cbn [ntrunc NumF]. rewrite ftrunc_spec, Ef, Ztrunc_IZR by auto.
      replace (int_ok z) with true by (symmetry; unfold int_ok; apply andb_true_intro; split; apply Z.leb_le; lia). cbn [bind].
      replace (int_ok (z - 1)) with true by (symmetry; unfold int_ok; apply andb_true_intro; split; apply Z.leb_le; lia). rewrite Z.max_r by lia. reflexivity.
    - unfold base_g2p. fold u. cbn [nfloor nsub NumF]. destruct (nofZ_F L 1 ltac:(cbn; lia)) as (F1 & E1).
      assert (Ed : fval (ffloor u) - fval (@nofZ F (NumF L) 1) = IZR (z - 1)) by (rewrite Ef, minus_IZR; f_equal; exact E1).
      assert (Er : rnd (IZR (z - 1)) = IZR (z - 1)) by (apply rnd_IZR; lia).
      destruct (fsub_spec (ffloor u) (@nofZ F (NumF L) 1) Ff F1) as (K1 & K2).
      { rewrite Ed, Er. rewrite <- Er. apply rnd_small. rewrite Rabs_pos_eq by (apply IZR_le; lia). apply Rle_trans with (bpow radix2 30); [|apply bpow_le; lia]. change (IZR (z - 1) <= IZR 1073741824). apply IZR_le. lia. }
      unfold to_uint. cbn [ntrunc NumF]. rewrite (ftrunc_spec _ K1), K2, Ed, Er, Ztrunc_IZR.
      replace (uint_ok (z - 1)) with true by (symmetry; unfold uint_ok; apply andb_true_intro; split; apply Z.leb_le; lia). reflexivity.
  Qed.
End Cells.

(** ** One axis of the first grid *)
Section InitAxis.
  Variable L : Libm.
  Hint Extern 0 (Num F) => exact (NumF L) : typeclass_instances.
  Context {G : Geo F}.
  Variable p : Par F.
  Variable M : R.
  Variable xs : list TV.
  Hypothesis Hc : cloud_okF L M p xs.
  Let h := fval (dx p).
  Let HM := cl_M L M p xs Hc.
  Let Hd := cl_dx L M p xs Hc.

  Lemma ref_F : forall k mn mx mn' mx', (k < dim)%nat -> ffin mn -> ffin mx -> Rabs (fval mn) <= M * h -> Rabs (fval mx) <= M * h -> fval mn <= fval mx ->
    ref_adjust p k mn mx = (mn', mx') -> ffin mn' /\ ffin mx' /\ Rabs (fval mn') <= M * h /\ Rabs (fval mx') <= M * h /\ fval mn' <= fval mn /\ fval mx <= fval mx'.
  Proof.
    intros k mn mx mn' mx' Hk F1 F2 B1 B2 Hle H. unfold ref_adjust in H.
    destruct (nltb (vget (grid_ref p) 0) (nofZ 10000000000)) eqn:E.
    - destruct (cl_ref L M p xs Hc E k Hk) as (Fr & Br). fold h in Br. cbv zeta in H. cbn [nltb NumF] in H. rewrite !flt_spec in H by auto.
      destruct (Rlt_bool_spec (fval (vget (grid_ref p) k)) (fval mn)); [|destruct (Rlt_bool_spec (fval mx) (fval (vget (grid_ref p) k)))]; apply pair_equal_spec in H; destruct H as (<- & <-); repeat (split; auto); lra.
    - apply pair_equal_spec in H; destruct H as (<- & <-); repeat (split; auto); lra.
  Qed.

  Record init_ax (k : nat) (a : Axis F) : Prop := {
    ia_c : ffin (ax_c a) /\ nth_error (ax_co a) 0 = Some (ax_c a);
    ia_co : forall i y, nth_error (ax_co a) i = Some y -> ffin y /\ Rabs (fval y) <= (M + 6) * h /\
      Rabs (fval y - (fval (ax_c a) + INR i * h)) <= INR i * (eps * ((M + 6) * h));
    ia_n : INR (length (ax_co a)) <= 4 * M + 25;
    ia_x : forall x, In x xs -> 1 + eps * (8 * (M + 6)) <= (fval (vget x k) - fval (ax_c a)) / h /\
      (fval (vget x k) - fval (ax_c a)) / h + 2 + eps * (8 * (M + 6)) < INR (length (ax_co a))
  }.

  Lemma margins : forall mn mx, ffin mn -> ffin mx -> Rabs (fval mn) <= M * h -> Rabs (fval mx) <= M * h ->
    let low := nsub mn (nmul (dx p) (nofZ 2)) in let stop := nadd (nadd mx (nmul (dx p) (nofZ 2))) (dx p) in
    ffin low /\ ffin stop /\ (ffin (nadd mx (nmul (dx p) (nofZ 2))) /\ Rabs (fval (nadd mx (nmul (dx p) (nofZ 2))) - (fval mx + 2 * h)) <= eps * (M + 6) * h) /\
    Rabs (fval low - (fval mn - 2 * h)) <= eps * (M + 6) * h /\ Rabs (fval stop - (fval mx + 3 * h)) <= eps * (2 * M + 12) * h.
  Proof.
    intros mn mx F1 F2 B1 B2. cbv zeta. pose proof (h_pos p Hd) as P. fold h in P. apply Rabs_le_inv in B1, B2. pose proof eps_pos as E0.
    destruct (nofZ_F L 2 ltac:(cbn; lia)) as (Fz & Ez). cbn [nmul nadd nsub NumF]. destruct Hd as (Fd & Bd).
    destruct (mul_err (dx p) (@nofZ F (NumF L) 2) (2 * h) Fd Fz) as (F3 & E3).
    { replace (fval (@nofZ F (NumF L) 2)) with 2 by (symmetry; exact Ez). fold h. rewrite Rabs_pos_eq by lra. lra. }
    { apply (inb p Hd). lra. }
    replace (fval (@nofZ F (NumF L) 2)) with 2 in E3 by (symmetry; exact Ez). fold h in E3. set (t := SFmul fprec femax (dx p) (@nofZ F (NumF L) 2)) in *.
    assert (Hh : eps * (2 * h) <= h / 1000000) by (unfold eps; lra). apply Rabs_le_inv in E3.
    assert (Hm1 : eps * ((M + 3) * h) <= h / 1000000) by (unfold eps; nra). assert (Hm2 : eps * ((M + 4) * h) <= h / 1000000) by (unfold eps; nra).
    destruct (sub_err mn t ((M + 3) * h) F1 F3) as (F4 & E4); [apply Rabs_le; lra|apply (inb p Hd); lra|].
    destruct (add_err mx t ((M + 3) * h) F2 F3) as (F5 & E5); [apply Rabs_le; lra|apply (inb p Hd); lra|]. apply Rabs_le_inv in E4, E5.
    destruct (add_err (SFadd fprec femax mx t) (dx p) ((M + 4) * h) F5 Fd) as (F6 & E6); [fold h; apply Rabs_le; lra|apply (inb p Hd); lra|]. apply Rabs_le_inv in E6. fold h in E6.
    split; auto. split; auto. split; [split; auto; apply Rabs_le; lra|]. split; apply Rabs_le; lra.
  Qed.

  Lemma extremes : forall k, (k < dim)%nat -> forall mx mn, max_elem (map (fun v => vget v k) xs) = Ok mx -> min_elem (map (fun v => vget v k) xs) = Ok mn ->
    ffin mx /\ ffin mn /\ Rabs (fval mx) <= M * h /\ Rabs (fval mn) <= M * h /\ fval mn <= fval mx /\ forall x, In x xs -> fval mn <= fval (vget x k) <= fval mx.
  Proof.
    intros k Hk mx mn E1 E2.
    assert (Fa : forall y, In y (map (fun v => vget v k) xs) -> ffin y /\ Rabs (fval y) <= M * h).
    { intros y Hy. apply in_map_iff in Hy. destruct Hy as (x & <- & Hx). now apply (cl_xs L M p xs Hc). }
    destruct (max_F L _ _ (fun y Hy => proj1 (Fa y Hy)) E1) as (I1 & M1). destruct (min_F L _ _ (fun y Hy => proj1 (Fa y Hy)) E2) as (I2 & M2).
    destruct (Fa _ I1). destruct (Fa _ I2). do 4 (split; [assumption|]). split; [apply M2; exact I1|]. intros x Hx. split; [apply M2|apply M1]; apply (in_map (fun v => vget v k)); auto.
  Qed.

  Lemma init_axis_F : forall af k a m, (k < dim)%nat -> remeshInit_axis af p 2 xs k = Ok (a, m) -> init_ax k a /\
    (ffin (ma_min m) /\ Rabs (fval (ma_min m)) <= M * h) /\ (ffin (ma_max m) /\ Rabs (fval (ma_max m)) <= M * h) /\
    (ffin (ma_low m) /\ Rabs (fval (ma_low m) - (fval (ma_min m) - 2 * h)) <= eps * (M + 6) * h) /\ (ffin (ma_high m) /\ Rabs (fval (ma_high m) - (fval (ma_max m) + 2 * h)) <= eps * (M + 6) * h).
  Proof.
    intros af k a m Hk H. unfold remeshInit_axis in H. apply bind_Ok in H. destruct H as (mx0 & E1 & H). apply bind_Ok in H. destruct H as (mn0 & E2 & H).
    destruct (extremes k Hk mx0 mn0 E1 E2) as (F1 & F2 & B1 & B2 & Hle & Hx).
    destruct (ref_adjust p k mn0 mx0) as (mn, mx) eqn:Er. destruct (ref_F k mn0 mx0 mn mx Hk F2 F1 B2 B1 Hle Er) as (F3 & F4 & B3 & B4 & Lm & Lx). cbv zeta in H.
    destruct (margins mn mx F3 F4 B3 B4) as (Fl & Fs & (Fhi & Ehi) & El & Es). cbv zeta in Fhi, Ehi, El, Es.
    apply bind_Ok in H. destruct H as (a' & Ha & Q). apply Ok_inj in Q. apply pair_equal_spec in Q. destruct Q as (-> & <-).
    split; [|cbn [ma_min ma_max ma_low ma_high]; auto].
    clear Fhi Ehi. set (low := nsub mn (nmul (dx p) (nofZ 2))) in *. set (stop := nadd (nadd mx (nmul (dx p) (nofZ 2))) (dx p)) in *.
    unfold mk_axis in Ha. apply bind_Ok in Ha. destruct Ha as (co & Hco & Ha). apply bind_Ok in Ha. destruct Ha as (c & Hr & Ha). apply Ok_inj in Ha. subst a.
    unfold arange in Hco. destruct (arange_loop af low stop (dx p)) as [l|] eqn:El0; [|discriminate]. apply Ok_inj in Hco. subst l.
    pose proof (h_pos p Hd) as P. fold h in P. pose proof eps_pos as E0. apply Rabs_le_inv in B3, B4.
    assert (e1 : eps * (M + 6) * h <= h / 1000000) by (unfold eps; nra). assert (e2 : eps * (2 * M + 12) * h <= h / 1000000) by (unfold eps; nra).
    apply Rabs_le_inv in El, Es. fold h in El, Es.
    destruct (arange_F L af low stop (dx p) ((M + 6) * h) co Fl Fs (proj1 Hd) P) as (K1 & K2); auto; fold h; try lra; [apply (inb p Hd); lra|].
    assert (Hc0 : nth_error co 0 = Some c) by (destruct co as [|c' r]; cbn in Hr; [discriminate|apply Ok_inj in Hr; now subst c']).
    assert (c = low) as -> by (destruct co as [|c' r]; [discriminate|]; destruct af; cbn [arange_loop] in El0; destruct (nltb low stop); try discriminate; destruct (arange_loop af (nadd low (dx p)) stop (dx p)); try discriminate; injection El0; injection Hc0; congruence).
    fold h in K1, K2. set (n := INR (length co)) in *.
    assert (Hn : n <= 4 * M + 25).
    { unfold n. destruct (length co) as [|j] eqn:Lc; [cbn; lra|]. destruct (nth_error co j) as [y|] eqn:Ey; [|apply nth_error_None in Ey; lia].
      destruct (K1 j y Ey) as (_ & A1 & A2). apply Rabs_le_inv in A1. rewrite S_INR. pose proof (pos_INR j). set (J := INR j) in *.
      assert (J * (h / 2) <= 2 * (M + 3) * h). { assert (J * h - J * (h / 1000000) <= fval stop - fval low) by nra. nra. }
      assert (J * / 2 <= 2 * (M + 3)) by (apply Rmult_le_reg_r with h; lra). lra. }
    assert (Hdr : n * (eps * ((M + 6) * h)) <= h / 16).
    { apply Rle_trans with ((4 * M + 25) * (eps * ((M + 6) * h))); [apply Rmult_le_compat_r; [nra|auto]|].
      assert ((4 * M + 25) * (eps * (M + 6)) <= 1/16) by (unfold eps; nra). nra. }
    constructor; cbn [ax_co ax_c].
    - auto.
    - intros i y Hy. destruct (K1 i y Hy) as (A1 & A2 & A3). split; auto. split; [apply Rabs_le; lra|auto].
    - exact Hn.
    - intros x Hin. destruct (Hx x Hin) as (X1 & X2). fold n. assert (e3 : eps * (8 * (M + 6)) <= 1 / 1000000) by (unfold eps; lra). split.
      + apply Rle_trans with (2 - 1/8); [lra|]. apply Rmult_le_reg_r with h; auto. replace ((fval (vget x k) - fval low) / h * h) with (fval (vget x k) - fval low) by (field; lra). lra.
      + apply Rle_lt_trans with (n - 3 + 1/8 + 2 + 1/1000000); [|lra]. apply Rplus_le_compat; [|lra]. apply Rplus_le_compat_r.
        apply Rmult_le_reg_r with h; auto. replace ((fval (vget x k) - fval low) / h * h) with (fval (vget x k) - fval low) by (field; lra).
        rewrite Rmult_plus_distr_l in K2. lra.
  Qed.

  Lemma init_axis_ends : forall k, (k < dim)%nat -> xs <> [] -> exists n0, forall af, (n0 <= af)%nat -> exists am, remeshInit_axis af p 2 xs k = Ok am.
  Proof.
    intros k Hk Hne. 
    destruct (max_elem (map (fun v => vget v k) xs)) as [mx0| |] eqn:E1; [|destruct xs; [congruence|discriminate]|destruct xs; discriminate].
    destruct (min_elem (map (fun v => vget v k) xs)) as [mn0| |] eqn:E2; [|destruct xs; [congruence|discriminate]|destruct xs; discriminate].
    destruct (extremes k Hk mx0 mn0 E1 E2) as (F1 & F2 & B1 & B2 & Hle & Hx).
    destruct (ref_adjust p k mn0 mx0) as (mn, mx) eqn:Er. destruct (ref_F k mn0 mx0 mn mx Hk F2 F1 B2 B1 Hle Er) as (F3 & F4 & B3 & B4 & Lm & Lx).
    destruct (margins mn mx F3 F4 B3 B4) as (Fl & Fs & (Fhi & Ehi) & El & Es). cbv zeta in Fhi, Ehi, El, Es.
    set (low := nsub mn (nmul (dx p) (nofZ 2))) in *. set (stop := nadd (nadd mx (nmul (dx p) (nofZ 2))) (dx p)) in *.
    pose proof (h_pos p Hd) as P. fold h in P. pose proof eps_pos as E0. apply Rabs_le_inv in B3, B4.
    assert (e1 : eps * (M + 6) * h <= h / 1000000) by (unfold eps; nra). assert (e2 : eps * (2 * M + 12) * h <= h / 1000000) by (unfold eps; nra).
    apply Rabs_le_inv in El, Es. fold h in El, Es.
    exists (Z.to_nat (up (4 * M + 40))). intros af Haf.
    assert (Hup : 4 * M + 40 <= INR af).
    { destruct (archimed (4 * M + 40)) as (U & _). apply Rle_trans with (INR (Z.to_nat (up (4 * M + 40)))); [|now apply le_INR].
      rewrite INR_IZR_INZ, Z2Nat.id; [lra|]. apply le_IZR. lra. }
    destruct (arange_ends L af low stop (dx p) ((M + 6) * h) Fl Fs (proj1 Hd) P) as (l & El0); fold h; try lra; [apply (inb p Hd); lra|nra|].
    unfold remeshInit_axis. rewrite E1. cbn [bind]. rewrite E2. cbn [bind]. rewrite Er. cbv zeta. fold low. unfold mk_axis, arange. fold stop. rewrite El0. cbn [bind].
    destruct l as [|c r]; [|cbn; eauto]. exfalso. destruct af; cbn [arange_loop] in El0; cbn [nltb NumF] in El0; rewrite flt_spec in El0 by auto; (destruct (Rlt_bool_spec (fval low) (fval stop)); [|lra]); [discriminate|].
    destruct (arange_loop af (nadd low (dx p)) stop (dx p)); discriminate.
  Qed.
End InitAxis.
