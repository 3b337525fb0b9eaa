(** * PropPlateRestF: C95, a plate at rest stays where it is in double precision. *)
From Coq Require Import ZArith Reals Lra Lia List Bool Floats.SpecFloat.
From Flocq Require Import Core.
From Flocq Require BinarySingleNaN.
From Verif Require Import Num NumF NumR Tools Lin Types Objects SpecF SpecGridF SpecPlateF ResProofs FloatBase FloatPbc FloatVel ExSimF PropPbcF FloatGrid PropPlateF.
Import ListNotations.
Local Open Scope R_scope.

Section Rest.
  Variable L : Libm.
  Hint Extern 0 (Num F) => exact (NumF L) : typeclass_instances.
  Context {G : Geo F}.
  Hypothesis HG : two_or_threeF G.

  Lemma r0 : Rabs (rnd 0) < fmax.
  Proof. rewrite rnd_0, Rabs_R0. apply bpow_gt_0. Qed.
  Lemma mul0r : forall x z, ffin x -> ffin z -> fval z = 0 -> ffin (SFmul fprec femax x z) /\ fval (SFmul fprec femax x z) = 0.
  Proof. intros x z Fx Fz E. destruct (fmul_spec x z Fx Fz) as (F1 & E1); [rewrite E, Rmult_0_r; apply r0|]. split; auto. rewrite E1, E, Rmult_0_r. apply rnd_0. Qed.
  Lemma mul0l : forall x z, ffin x -> ffin z -> fval z = 0 -> ffin (SFmul fprec femax z x) /\ fval (SFmul fprec femax z x) = 0.
  Proof. intros x z Fx Fz E. destruct (fmul_spec z x Fz Fx) as (F1 & E1); [rewrite E, Rmult_0_l; apply r0|]. split; auto. rewrite E1, E, Rmult_0_l. apply rnd_0. Qed.
  Lemma fin_lt : forall x, ffin x -> Rabs (fval x) < fmax.
  Proof. intros x Hx. destruct (fin_B x Hx) as (b & -> & Fb & Eb). rewrite <- Eb. unfold fmax; apply BinarySingleNaN.abs_B2R_lt_emax. Qed.
  Lemma plus0 : forall x z, ffin x -> ffin z -> fval z = 0 -> ffin (SFadd fprec femax x z) /\ fval (SFadd fprec femax x z) = fval x.
  Proof.
    intros x z Fx Fz E. destruct (fadd_spec x z Fx Fz) as (F1 & E1); [rewrite E, Rplus_0_r, (rnd_id x Fx); now apply fin_lt|].
    split; auto. rewrite E1, E, Rplus_0_r. now apply rnd_id.
  Qed.
  (** The loading factor is finite when the user's reduction factor is not too close to zero. *)
  Lemma factor_fin : forall (b : bool) vmin, ffin vmin -> bpow radix2 (-1000) <= Rabs (fval vmin) -> ffin (if b then @ndiv F (NumF L) (nofZ 1) vmin else nofZ 1).
  Proof.
    intros b vmin Fv Bv. destruct (nofZ_F L 1 ltac:(lia)) as (F1 & E1). destruct b; [|exact F1]. pose proof (bpow_gt_0 radix2 (-1000)) as P.
    assert (N : fval vmin <> 0) by (intros E; rewrite E, Rabs_R0 in Bv; lra).
    apply (fdiv_spec _ vmin F1 Fv N). rewrite E1. apply small. unfold Rdiv. rewrite Rmult_1_l, Rabs_inv.
    replace (bpow radix2 1000) with (/ bpow radix2 (-1000)) by (rewrite <- bpow_opp; reflexivity). now apply Rinv_le_contravar.
  Qed.
  Lemma move_rest : forall dt fd t pl, ffin dt -> ffin (pl_vmin pl) -> bpow radix2 (-1000) <= Rabs (fval (pl_vmin pl)) ->
    (forall k, (k < dim)%nat -> ffin (vget (pl_v0 pl) k) /\ fval (vget (pl_v0 pl) k) = 0) -> ffin (pl_pos pl) -> ffin (pl_lower pl) -> ffin (pl_upper pl) ->
    same_place pl (plate_move dt fd t pl) /\ pl_v0 (plate_move dt fd t pl) = pl_v0 pl /\ pl_vmin (plate_move dt fd t pl) = pl_vmin pl.
  Proof.
    intros dt fd t pl Fd Fm Bm H0 Fp Fl Fu. unfold plate_move. cbv zeta. set (b := nltb t (nmul (pl_load pl) fd)). pose proof (factor_fin b _ Fm Bm) as Ff.
    set (f := if b then ndiv (nofZ 1) (pl_vmin pl) else nofZ 1) in *.
    assert (V : forall k, (k < dim)%nat -> ffin (vget (vscale (pl_v0 pl) f) k) /\ fval (vget (vscale (pl_v0 pl) f) k) = 0).
    { intros k Hk. unfold vscale. rewrite vgetF by auto. destruct (H0 k Hk). now apply mul0l. }
    set (v := vscale (pl_v0 pl) f) in *. change (@nmul F (NumF L)) with (SFmul fprec femax). change (@nadd F (NumF L)) with (SFadd fprec femax).
    assert (K : forall x k, (k < dim)%nat -> ffin x -> ffin (SFadd fprec femax x (SFmul fprec femax dt (vget v k))) /\ fval (SFadd fprec femax x (SFmul fprec femax dt (vget v k))) = fval x).
    { intros x k Hk Fx. destruct (V k Hk) as (F1 & E1). destruct (mul0r dt _ Fd F1 E1). now apply plus0. }
    assert (D : (0 < dim)%nat /\ (1 < dim)%nat) by (destruct (dimF G HG) as [Dd|Dd]; rewrite Dd; lia). destruct D as (D0 & D1).
    unfold same_place. destruct (pl_type pl) eqn:Et; destruct (dimF G HG) as [Dd|Dd]; rewrite ?Dd; cbn [pl_pos pl_type pl_bc pl_fric pl_lower pl_upper pl_v pl_v0 pl_vmin];
      repeat (match goal with |- _ /\ _ => split end); auto; first [now apply V | apply K; auto; lia].
  Qed.
End Rest.

(** A plate built with zero velocity, moved any number of times with any time steps and at any times, with any loading time and a
    reduction factor [vmin] of at least 2^-1000, keeps its place exactly and stays at rest. *)
Theorem C95_plate_rests_partial : forall (L : Libm) (G : Geo F), two_or_threeF G ->
  forall (fd : F) (moves : list (F * F)) (pl : Plate F), let NF := NumF L in
  (forall dt t, In (dt, t) moves -> ffin dt) -> ffin (pl_vmin pl) -> bpow radix2 (-1000) <= Rabs (fval (pl_vmin pl)) ->
  plate_restF pl -> (forall k, (k < dim)%nat -> ffin (vget (pl_v0 pl) k) /\ fval (vget (pl_v0 pl) k) = 0) -> ffin (pl_pos pl) -> ffin (pl_lower pl) -> ffin (pl_upper pl) ->
  same_place pl (fold_left (fun q m => plate_move (fst m) fd (snd m) q) moves pl).
Proof.
  intros L G HG fd moves pl NF. unfold NF. clear NF. revert pl. induction moves as [|(dt, t) moves IH]; intros pl Hd Fm Bm Hr H0 Fp Fl Fu.
  - unfold same_place. cbn [fold_left]. auto 12.
  - cbn [fold_left fst snd]. destruct (move_rest L HG dt fd t pl (Hd dt t (or_introl eq_refl)) Fm Bm H0 Fp Fl Fu) as (S & E0 & Em).
    destruct S as (S1 & S2 & S3 & S4 & (S5 & S5') & (S6 & S6') & (S7 & S7')).
    assert (Q : same_place (plate_move (NA := NumF L) dt fd t pl) (fold_left (fun q m => plate_move (NA := NumF L) (fst m) fd (snd m) q) moves (plate_move (NA := NumF L) dt fd t pl))).
    { apply IH; auto; [intros d u I; apply (Hd d u); now right| | |]; rewrite ?Em, ?E0; auto. }
    destruct Q as (Q1 & Q2 & Q3 & Q4 & (Q5 & Q5') & (Q6 & Q6') & (Q7 & Q7')). unfold same_place. rewrite Q1, Q2, Q3, Q5', Q6', Q7'. auto 12.
Qed.
(** With a reduction factor of zero during loading it does not: 0 * (1/0) is not a number, the position becomes NaN after one
    step, and the plate then contains no point at all. *)
Theorem C95_zero_factor_refuted : forall L, let NF := NumF L in
  exists pl : @Plate F (Geo2 F), plate_restF (G := Geo2 F) pl /\ plate_inside (G := Geo2 F) pl (mkV2 (fofZ 0) (fofZ (-1))) = true /\
    let pl' := plate_move (G := Geo2 F) (fofQ 1 1000) (fofQ 1 10) (fofZ 0) pl in
    pl_pos pl' = S754_nan /\ forall X, plate_inside (G := Geo2 F) pl' X = false.
Proof.
  intros L NF. unfold NF. clear NF.
  exists (mkPlate (G := Geo2 F) (fofZ 0) pbottom NoSlip (fofZ 0) (fofZ (-1000)) (fofZ 1000) (mkV2 (fofZ 0) (fofZ 0)) (mkV2 (fofZ 0) (fofZ 0)) (fofZ 0) (fofZ 1)).
  assert (Z0 : ffin (fofZ 0) /\ fval (fofZ 0) = 0) by (apply (fofZ_spec 0); lia).
  split; [intros k Hk; destruct k as [|[|k]]; exact Z0|]. split; [vm_compute; reflexivity|]. cbv zeta. split; [vm_compute; reflexivity|].
  intros X. unfold plate_inside. cbv zeta.
  match goal with |- context [plate_move ?a ?b ?c ?d] => assert (E : plate_move (NA := NumF L) (G := Geo2 F) a b c d = mkPlate (G := Geo2 F) S754_nan pbottom NoSlip (fofZ 0) S754_nan S754_nan (mkV2 S754_nan S754_nan) (mkV2 (fofZ 0) (fofZ 0)) (fofZ 0) (fofZ 1)) by (vm_compute; reflexivity); rewrite E end.
  cbn [pl_type pl_upper pl_lower pl_pos]. change (@nltb F (NumF L)) with SFltb. destruct (vget X 0) as [[]|[]| |[]]; reflexivity.
Qed.
(** The hypotheses are met: the floor of C93, with the default factor 1, moved twice. *)
Example C95_ex : forall L, let NF := NumF L in
  same_place (G := Geo2 F) (cornerF pbottom) (fold_left (fun q m => plate_move (G := Geo2 F) (fst m) (fofQ 1 10) (snd m) q) [(fofQ 1 100, fofZ 0); (fofQ 1 200, fofQ 1 100)] (cornerF pbottom)).
Proof.
  intros L NF. unfold NF. clear NF. assert (Z : forall z, (-1000 <= z <= 1000)%Z -> ffin (fofZ z) /\ fval (fofZ z) = IZR z) by (intros z Hz; apply (fofZ_spec z); lia).
  apply (C95_plate_rests_partial L (Geo2 F) (or_introl eq_refl)).
  - intros dt t [E|[E|[]]]; apply pair_equal_spec in E; destruct E as (<- & _); split; vm_compute; reflexivity.
  - apply (Z 1%Z); lia.
  - change (pl_vmin (cornerF pbottom)) with (fofZ 1). destruct (Z 1%Z ltac:(lia)) as (_ & ->). rewrite Rabs_pos_eq by lra. apply Rle_trans with (bpow radix2 0); [apply bpow_le; lia|cbn; lra].
  - intros k Hk. destruct k as [|[|k]]; apply (Z 0%Z); lia.
  - intros k Hk. destruct k as [|[|k]]; apply (Z 0%Z); lia.
  - apply (Z 0%Z); lia.
  - apply (Z (-1000)%Z); lia.
  - apply (Z 1000%Z); lia.
Qed.
Print Assumptions C95_plate_rests_partial.
Print Assumptions C95_zero_factor_refuted.
