(** * PropPlateF: C93, contact with resting plates in double precision. *)
From Coq Require Import ZArith Reals Lra Lia List Bool Floats.SpecFloat.
From Flocq Require Import Core.
From Verif Require Import Num NumF NumR Tools Lin Types Objects SpecF SpecGridF SpecPlateF ResProofs FloatBase FloatPbc FloatVel ExSimF PropPbcF FloatGrid.
Import ListNotations.
Local Open Scope R_scope.

Lemma between0_trans : forall a b c, between0 a b -> between0 b c -> between0 a c.
Proof. unfold between0. intros. lra. Qed.
Lemma between0_refl : forall a, between0 a a.
Proof. unfold between0. intros. lra. Qed.
Lemma between0_0 : forall a, between0 a 0.
Proof. unfold between0. intros. lra. Qed.
Lemma between0_abs : forall a b, between0 a b -> Rabs b <= Rabs a.
Proof. unfold between0. intros a b H. unfold Rabs. destruct (Rcase_abs b), (Rcase_abs a); lra. Qed.

Section Plate.
  Variable L : Libm.
  Hint Extern 0 (Num F) => exact (NumF L) : typeclass_instances.
  Let B := bpow radix2 300.

  Lemma small : forall x, Rabs x <= bpow radix2 1000 -> Rabs (rnd x) < fmax.
  Proof. intros x H. apply rnd_small. eapply Rle_trans; [exact H|apply bpow_le; lia]. Qed.
  Lemma B1000 : B <= bpow radix2 1000.
  Proof. apply bpow_le. lia. Qed.
  Lemma sub0 : forall x z, finiteF B x -> ffin z -> fval z = 0 -> ffin (SFsub fprec femax x z) /\ fval (SFsub fprec femax x z) = fval x.
  Proof.
    intros x z (Fx & Bx) Fz Ez. destruct (fsub_spec x z Fx Fz) as (F1 & E1).
    - apply small. rewrite Ez, Rminus_0_r. eapply Rle_trans; [exact Bx|apply B1000].
    - split; auto. rewrite E1, Ez, Rminus_0_r. now apply rnd_id.
  Qed.
  Lemma add0 : forall x z, finiteF B x -> ffin z -> fval z = 0 -> ffin (SFadd fprec femax x z) /\ fval (SFadd fprec femax x z) = fval x.
  Proof.
    intros x z (Fx & Bx) Fz Ez. destruct (fadd_spec x z Fx Fz) as (F1 & E1).
    - apply small. rewrite Ez, Rplus_0_r. eapply Rle_trans; [exact Bx|apply B1000].
    - split; auto. rewrite E1, Ez, Rplus_0_r. now apply rnd_id.
  Qed.
  Lemma zeroF : ffin (@nofZ F (NumF L) 0) /\ fval (@nofZ F (NumF L) 0) = 0.
  Proof. exact (nofZ_F L 0 ltac:(lia)). Qed.
  Lemma eqb0 : forall f, ffin f -> fval f = 0 -> SFeqb f (@nofZ F (NumF L) 0) = true.
  Proof. intros f Ff E. destruct zeroF as (F0 & E0). unfold SFeqb. rewrite (fcmp f _ Ff F0), E, E0, Rcompare_Eq; auto. Qed.
  Definition shrunk (x y : F) : Prop := ffin y /\ between0 (fval x) (fval y).
  Lemma shrunk_fin : forall x y, finiteF B x -> shrunk x y -> finiteF B y.
  Proof. intros x y (_ & Bx) (Fy & S). split; auto. eapply Rle_trans; [apply between0_abs; exact S|exact Bx]. Qed.

  (** Friction: the reduced tangential component has the sign of the old one, and is not larger. *)
  Lemma fric2 : forall f vt vn, ffin f -> 0 <= fval f <= bpow radix2 100 -> finiteF B vt -> finiteF B vn -> shrunk vt (plate_fric2 f vt vn).
  Proof.
    intros f vt vn Ff Bf (Ft & Bt) (Fn & Bn). destruct zeroF as (F0 & E0). unfold plate_fric2.
    change (@neqb F (NumF L)) with SFeqb. change (@nltb F (NumF L)) with SFltb. change (@nabs F (NumF L)) with SFabs. change (@nmul F (NumF L)) with (SFmul fprec femax). change (@nsub F (NumF L)) with (SFsub fprec femax). change (@nadd F (NumF L)) with (SFadd fprec femax).
    destruct (SFeqb f _); [split; [auto|apply between0_refl]|].
    destruct (fabs_spec vn Fn) as (Fa & Ea). destruct (fabs_spec vt Ft) as (Fb & Eb).
    assert (Bm : Rabs (fval f * fval (SFabs vn)) <= bpow radix2 1000).
    { rewrite Ea, Rabs_mult, Rabs_Rabsolu, (Rabs_pos_eq (fval f)) by lra. apply Rle_trans with (bpow radix2 100 * bpow radix2 300); [apply Rmult_le_compat; try lra; [apply Rabs_pos|exact Bn]|]. rewrite <- bpow_plus. apply bpow_le. lia. }
    destruct (fmul_spec f (SFabs vn) Ff Fa (small _ Bm)) as (Fm & Em). set (m := SFmul fprec femax f (SFabs vn)) in *.
    assert (m0 : 0 <= fval m). { rewrite Em, <- rnd_0. apply rnd_mono. rewrite Ea. apply Rmult_le_pos; [lra|apply Rabs_pos]. }
    rewrite (flt_spec (SFabs vt) m Fb Fm), Eb. destruct (Rlt_bool_spec (Rabs (fval vt)) (fval m)) as [Hl|Hl]; [split; [exact F0|rewrite E0; apply between0_0]|].
    rewrite (flt_spec _ vt F0 Ft), E0. pose proof B1000 as B10. destruct (Rlt_bool_spec 0 (fval vt)) as [Hp|Hp].
    - rewrite Rabs_pos_eq in * by lra. destruct (fsub_spec vt m Ft Fm) as (F1 & E1); [apply small; apply Rabs_le; lra|].
      split; auto. rewrite E1. left. split; [rewrite <- rnd_0; apply rnd_mono; lra|rewrite <- (rnd_id vt Ft); apply rnd_mono; rewrite (rnd_id vt Ft); lra].
    - rewrite Rabs_left1 in * by lra. destruct (fadd_spec vt m Ft Fm) as (F1 & E1); [apply small; apply Rabs_le; lra|].
      split; auto. rewrite E1. right. split; [rewrite <- (rnd_id vt Ft); apply rnd_mono; rewrite (rnd_id vt Ft); lra|rewrite <- rnd_0; apply rnd_mono; lra].
  Qed.

  Context {G : Geo F}.
  Hypothesis HG : two_or_threeF G.
  Definition vfin (v : TV) : Prop := forall k, (k < dim)%nat -> finiteF B (vget v k).
  Definition vshrunk (v w : TV) : Prop := forall k, (k < dim)%nat -> shrunk (vget v k) (vget w k).

  Lemma slide : forall f t w, fric_okF f -> vfin w -> vshrunk w (plate_slide f t w) /\ (dim = 3%nat \/ (t <> pfront /\ t <> pback) -> fval (vget (plate_slide f t w) (plate_axis t)) = 0).
  Proof.
    intros f t w (Ff & Bf & D3) Hw. destruct zeroF as (F0 & E0). destruct HG as [E|E]; revert f t w Ff Bf D3 Hw; unfold vfin, vshrunk; rewrite E; cbn [dim Geo2 Geo3]; intros f t w Ff Bf D3 Hw.
    - pose proof (Hw 0%nat ltac:(lia)) as W0. pose proof (Hw 1%nat ltac:(lia)) as W1. pose proof (fric2 f _ _ Ff Bf W0 W1) as Q0. pose proof (fric2 f _ _ Ff Bf W1 W0) as Q1.
      assert (R0 : shrunk (vget w 0) (vget w 0)) by (split; [apply W0|apply between0_refl]). assert (R1 : shrunk (vget w 1) (vget w 1)) by (split; [apply W1|apply between0_refl]).
      assert (Z : forall x, shrunk x (@nofZ F (NumF L) 0)) by (intros x; split; [exact F0|rewrite E0; apply between0_0]).
      split; [intros k Hk; destruct k as [|[|k]]; [| |lia]; destruct t; unfold plate_slide; cbn; auto|].
      intros [C|(C1 & C2)]; [discriminate|]. destruct t; try congruence; exact E0.
    - assert (Ef : SFeqb f (@nofZ F (NumF L) 0) = true) by (apply eqb0; auto).
      assert (Z : forall x, shrunk x (@nofZ F (NumF L) 0)) by (intros x; split; [exact F0|rewrite E0; apply between0_0]).
      assert (R : forall k, (k < 3)%nat -> shrunk (vget w k) (vget w k)) by (intros k Hk; split; [now apply Hw|apply between0_refl]).
      assert (E3 : forall a b c, plate_fric3 f a b c = (a, b)) by (intros; unfold plate_fric3; change (@neqb F (NumF L)) with SFeqb; rewrite Ef; reflexivity).
      pose proof (R 0%nat ltac:(lia)) as R0. pose proof (R 1%nat ltac:(lia)) as R1. pose proof (R 2%nat ltac:(lia)) as R2.
      split; [intros k Hk; destruct k as [|[|[|k]]]; [| | |lia]; destruct t; unfold plate_slide; cbn [dim Geo3 plate_tan]; rewrite E3; cbn; auto|].
      intros _. destruct t; unfold plate_slide; cbn [dim Geo3 plate_tan]; rewrite E3; exact E0.
  Qed.
  Lemma towards : forall t w, vfin w -> (dim = 3%nat \/ (t <> pfront /\ t <> pback)) -> plate_towards t w = false ->
    match t with ptop => fval (vget w 1) <= 0 | pbottom => 0 <= fval (vget w 1) | pleft => 0 <= fval (vget w 0) | pright => fval (vget w 0) <= 0 | pfront => fval (vget w 2) <= 0 | pback => 0 <= fval (vget w 2) end.
  Proof.
    intros t w Hw Hd H. destruct zeroF as (F0 & E0). assert (D : (0 < dim)%nat /\ (1 < dim)%nat) by (destruct (dimF G HG) as [Dd|Dd]; rewrite Dd; lia). destruct D as (D0 & D1).
    assert (Fw : forall k, (k < dim)%nat -> ffin (vget w k)) by (intros k Hk; apply (Hw k Hk)).
    destruct t; cbn [plate_towards] in H; change (@nltb F (NumF L)) with SFltb in H;
      rewrite flt_spec in H by (first [exact F0|apply Fw; destruct Hd as [Dd|(C1 & C2)]; [rewrite Dd; lia|first [exact D0|exact D1|congruence]]]);
      rewrite E0 in H; revert H; (case Rlt_bool_spec; [discriminate|auto]).
  Qed.
  Lemma collide_one : forall (mibf : bool) nfr pl v, plate_restF pl -> fric_okF (if mibf then nfr else pl_fric pl) -> vfin v ->
    vshrunk v (plate_collide mibf nfr pl v) /\ (dim = 3%nat \/ (pl_type pl <> pfront /\ pl_type pl <> pback) -> into_plate pl (plate_collide mibf nfr pl v) <= 0).
  Proof.
    intros mibf nfr pl v Hr Hf Hv. unfold plate_collide. cbv zeta. set (fr := if mibf then nfr else pl_fric pl) in *. destruct zeroF as (F0 & E0). pose proof (bpow_gt_0 radix2 300) as B0. fold B in B0.
    assert (W : forall k, (k < dim)%nat -> ffin (vget (vsub v (pl_v pl)) k) /\ fval (vget (vsub v (pl_v pl)) k) = fval (vget v k)).
    { intros k Hk. unfold vsub. rewrite vgetF by auto. destruct (Hr k Hk). apply sub0; auto. }
    set (w := vsub v (pl_v pl)) in *. assert (Hw : vfin w) by (intros k Hk; destruct (W k Hk) as (A1 & A2); split; [exact A1|rewrite A2; apply (Hv k Hk)]).
    set (w' := match pl_bc pl with NoSlip => vzero | SlipStick => plate_slide fr (pl_type pl) w | SlipFree => if plate_towards (pl_type pl) w then plate_slide fr (pl_type pl) w else w end).
    destruct (slide fr (pl_type pl) w Hf Hw) as (S1 & S2).
    assert (Q : vshrunk w w' /\ (dim = 3%nat \/ (pl_type pl <> pfront /\ pl_type pl <> pback) -> into_plate pl w' <= 0)).
    { assert (SS : vshrunk w (plate_slide fr (pl_type pl) w) /\ (dim = 3%nat \/ (pl_type pl <> pfront /\ pl_type pl <> pback) -> into_plate pl (plate_slide fr (pl_type pl) w) <= 0)).
      { split; auto. intros Hd. specialize (S2 Hd). unfold into_plate. destruct (pl_type pl); cbn [plate_axis] in S2; rewrite S2; lra. }
      unfold w'. destruct (pl_bc pl); auto.
      - assert (Z : forall k, (k < dim)%nat -> vget (@vzero F (NumF L) G) k = @nofZ F (NumF L) 0) by (intros k Hk; unfold vzero; now rewrite vgetF by auto).
        split; [intros k Hk; rewrite Z by auto; split; [exact F0|rewrite E0; apply between0_0]|]. intros Hd. unfold into_plate.
        assert (D : (0 < dim)%nat /\ (1 < dim)%nat) by (destruct (dimF G HG) as [Dd|Dd]; rewrite Dd; lia). destruct D as (D0 & D1).
        assert (K : (plate_axis (pl_type pl) < dim)%nat) by (destruct Hd as [Dd|(C1 & C2)]; [rewrite Dd; destruct (pl_type pl); cbn; lia|destruct (pl_type pl); cbn; auto; congruence]).
        pose proof (f_equal fval (Z _ K)) as ZE. destruct (pl_type pl); cbn [plate_axis] in ZE; rewrite ZE, E0; lra.
      - destruct (plate_towards (pl_type pl) w) eqn:T; auto. split; [intros k Hk; split; [apply Hw; auto|apply between0_refl]|].
        intros Hd. pose proof (towards _ _ Hw Hd T) as Q. unfold into_plate. destruct (pl_type pl); lra. }
    destruct Q as (Q1 & Q2).
    assert (V : forall k, (k < dim)%nat -> ffin (vget (vadd w' (pl_v pl)) k) /\ fval (vget (vadd w' (pl_v pl)) k) = fval (vget w' k)).
    { intros k Hk. unfold vadd. rewrite vgetF by auto. destruct (Hr k Hk). apply add0; auto. eapply shrunk_fin; [apply Hw; exact Hk|auto]. }
    split.
    - intros k Hk. destruct (V k Hk) as (A1 & A2). split; [exact A1|]. rewrite A2. destruct (W k Hk) as (_ & <-). apply (Q1 k Hk).
    - intros Hd. specialize (Q2 Hd). assert (D : (0 < dim)%nat /\ (1 < dim)%nat) by (destruct (dimF G HG) as [Dd|Dd]; rewrite Dd; lia). destruct D as (D0 & D1).
      assert (K : (plate_axis (pl_type pl) < dim)%nat) by (destruct Hd as [Dd|(C1 & C2)]; [rewrite Dd; destruct (pl_type pl); cbn; lia|destruct (pl_type pl); cbn; auto; congruence]).
      destruct (V _ K) as (_ & VE). unfold into_plate in *. destruct (pl_type pl); cbn [plate_axis] in VE; rewrite VE; exact Q2.
  Qed.
  (** The test of the code is the geometric one: the rounded difference has the sign of the exact one. *)
  Lemma diff_le0 : forall x y, finiteF B x -> finiteF B y -> fval x <= fval y -> SFleb (SFsub fprec femax x y) (@nofZ F (NumF L) 0) = true.
  Proof.
    intros x y (Fx & Bx) (Fy & By) H. destruct zeroF as (F0 & E0). destruct (fsub_spec x y Fx Fy) as (F1 & E1).
    - apply small. apply Rle_trans with (bpow radix2 301); [|apply bpow_le; lia]. replace (bpow radix2 301) with (2 * B) by (unfold B; replace 301%Z with (1 + 300)%Z by lia; rewrite bpow_plus; reflexivity). apply Rabs_le_inv in Bx, By. apply Rabs_le. lra.
    - rewrite (fle_spec _ _ F1 F0), E1, E0. apply Rle_bool_true. rewrite <- rnd_0. apply rnd_mono. lra.
  Qed.
  Lemma inside_ok : forall pl X, vfin X -> finiteF B (pl_pos pl) -> ffin (pl_lower pl) -> ffin (pl_upper pl) -> behindF pl X -> plate_inside pl X = true /\ (dim = 3%nat \/ (pl_type pl <> pfront /\ pl_type pl <> pback)).
  Proof.
    intros pl X HX HP Hl Hu H. assert (D : (0 < dim)%nat /\ (1 < dim)%nat) by (destruct (dimF G HG) as [Dd|Dd]; rewrite Dd; lia). destruct D as (D0 & D1). pose proof (HX 0%nat D0) as X0. pose proof (HX 1%nat D1) as X1.
    unfold behindF in H. cbv zeta in H. unfold plate_inside. cbv zeta. change (@nltb F (NumF L)) with SFltb. change (@nleb F (NumF L)) with SFleb. change (@nsub F (NumF L)) with (SFsub fprec femax).
    destruct (pl_type pl); try (destruct H as (Hd & H); rewrite Hd; split; [apply diff_le0; auto; apply HX; lia|now left]);
      destruct H as ((H1 & H2) & H); (split; [|right; split; discriminate]);
      rewrite !flt_spec by (auto; first [apply X0|apply X1]); rewrite !Rlt_bool_true by auto; cbn [andb]; apply diff_le0; auto.
  Qed.
  Lemma into_shrunk : forall pl v w, (dim = 3%nat \/ (pl_type pl <> pfront /\ pl_type pl <> pback)) -> vshrunk v w -> into_plate pl v <= 0 -> into_plate pl w <= 0.
  Proof.
    intros pl v w Hd Hs H. assert (D : (0 < dim)%nat /\ (1 < dim)%nat) by (destruct (dimF G HG) as [Dd|Dd]; rewrite Dd; lia). destruct D as (D0 & D1). unfold into_plate in *.
    assert (K : (plate_axis (pl_type pl) < dim)%nat) by (destruct Hd as [Dd|(C1 & C2)]; [rewrite Dd; destruct (pl_type pl); cbn; lia|destruct (pl_type pl); cbn; auto; congruence]).
    destruct (Hs _ K) as (_ & [S|S]); destruct (pl_type pl); cbn [plate_axis] in S; lra.
  Qed.
  Lemma plates_all : forall p nfr X plates v, (forall pl, In pl plates -> plate_restF pl /\ fric_okF (if use_mibf p then nfr else pl_fric pl)) -> vfin v ->
    vshrunk v (plates_loop p nfr plates X v) /\
    forall pl, In pl plates -> vfin X -> finiteF B (pl_pos pl) -> ffin (pl_lower pl) -> ffin (pl_upper pl) -> behindF pl X -> into_plate pl (plates_loop p nfr plates X v) <= 0.
  Proof.
    intros p nfr X plates. induction plates as [|q plates IH]; intros v Hp Hv.
    - split; [intros k Hk; split; [apply Hv; auto|apply between0_refl]|intros pl []].
    - change (plates_loop p nfr (q :: plates) X v) with (plates_loop p nfr plates X (if plate_inside q X then plate_collide (use_mibf p) nfr q v else v)).
      set (v1 := if plate_inside q X then plate_collide (use_mibf p) nfr q v else v). destruct (Hp q (or_introl eq_refl)) as (Hr & Hf). destruct (collide_one (use_mibf p) nfr q v Hr Hf Hv) as (C1 & C2).
      assert (S1 : vshrunk v v1) by (unfold v1; destruct (plate_inside q X); [exact C1|intros k Hk; split; [apply Hv; auto|apply between0_refl]]).
      assert (Hv1 : vfin v1) by (intros k Hk; eapply shrunk_fin; [apply Hv; exact Hk|auto]).
      destruct (IH v1 (fun pl I => Hp pl (or_intror I)) Hv1) as (T1 & T2). split.
      + intros k Hk. destruct (S1 k Hk) as (_ & A1). destruct (T1 k Hk) as (A2 & A3). split; [exact A2|eapply between0_trans; eauto].
      + intros pl [<-|I] HX HP Hl Hu Hb; [|now apply T2]. destruct (inside_ok q X HX HP Hl Hu Hb) as (In1 & Hd). apply (into_shrunk q v1); auto. unfold v1. rewrite In1. now apply C2.
  Qed.
End Plate.

(** Any number of resting plates: every velocity component ends between zero and its old value, exactly and without overflow, and
    the node does not move into any plate it is behind (where it is predicted to be). *)
Theorem C93_resting_plates_partial : forall (L : Libm) (G : Geo F), two_or_threeF G ->
  forall (p : Par F) (plates : list (Plate F)) (dt nfr : F) (Xi vi : TV), let NF := NumF L in let B := bpow radix2 300 in
  objects p = [] -> (forall pl, In pl plates -> plate_restF pl /\ fric_okF (if use_mibf p then nfr else pl_fric pl)) -> (forall k, (k < dim)%nat -> finiteF B (vget vi k)) ->
  exists v', boundaryCollision p plates dt nfr Xi vi = Ok v' /\
    (forall k, (k < dim)%nat -> ffin (vget v' k) /\ between0 (fval (vget vi k)) (fval (vget v' k))) /\
    let X := vadd Xi (lscale dt vi) in
    forall pl, In pl plates -> (forall k, (k < dim)%nat -> finiteF B (vget X k)) -> finiteF B (pl_pos pl) -> ffin (pl_lower pl) -> ffin (pl_upper pl) ->
      behindF pl X -> into_plate pl v' <= 0.
Proof.
  intros L G HG p plates dt nfr Xi vi NF B Ho Hp Hv. unfold NF in *. clear NF. destruct (plates_all L HG p nfr (vadd (NA := NumF L) Xi (lscale (NA := NumF L) dt vi)) plates vi Hp Hv) as (S & T).
  eexists. split; [unfold boundaryCollision, objects_loop; rewrite Ho; reflexivity|]. split; [exact S|exact T].
Qed.

(** With friction in three dimensions this fails: 0/0 in the second tangential component.  The node moves along x only, at 2^-500,
    towards the ground at slightly less; friction (coefficient 1) leaves 2^-553, whose square is zero in double precision. *)
Definition slow3_plate : @Plate F (Geo3 F) :=
  mkPlate (G := Geo3 F) (fofZ 0) pbottom SlipFree (fofZ 1) (fofZ (-1000)) (fofZ 1000) (mkV3 (fofZ 0) (fofZ 0) (fofZ 0)) (mkV3 (fofZ 0) (fofZ 0) (fofZ 0)) (fofZ 1) (fofZ 0).
Definition slow3_v : @TV F (Geo3 F) := mkV3 (S754_finite false 4503599627370496 (-552)) (S754_finite true 9007199254740991 (-553)) (fofZ 0).
Theorem C93_friction_3D_refuted : forall (L : Libm) (p : @Par F (Geo3 F)), let NF := NumF L in let B := bpow radix2 300 in objects p = [] -> use_mibf p = false ->
  exists (pl : @Plate F (Geo3 F)) (dt : F) (X v : @TV F (Geo3 F)), plate_restF (G := Geo3 F) pl /\ ffin (pl_fric pl) /\ fval (pl_fric pl) = 1 /\ (forall k, (k < 3)%nat -> finiteF B (vget v k)) /\
    exists v', boundaryCollision (G := Geo3 F) p [pl] dt (fofZ 0) X v = Ok v' /\ vget v' 2 = S754_nan.
Proof.
  intros L p NF B Ho Hm. unfold NF, B in *. clear NF B. exists slow3_plate, (fofZ 0), (mkV3 (fofZ 0) (fofZ 0) (fofZ 0)), slow3_v.
  assert (Z0 : ffin (fofZ 0) /\ fval (fofZ 0) = 0) by (apply (fofZ_spec 0); lia). assert (Z1 : ffin (fofZ 1) /\ fval (fofZ 1) = 1) by (apply (fofZ_spec 1); lia).
  split; [intros k Hk; destruct k as [|[|[|k]]]; exact Z0|]. split; [apply Z1|]. split; [apply Z1|]. split.
  - assert (P : forall m (s : bool), (0 < Z.pos m <= 9007199254740992)%Z -> forall e, (e <= 0)%Z -> Rabs (fval (S754_finite s m e)) <= bpow radix2 300).
    { intros m s Hb e He. rewrite fval_fin, Rabs_mult, (Rabs_pos_eq (bpow radix2 e)) by apply bpow_ge_0. apply Rle_trans with (bpow radix2 53 * bpow radix2 0); [|rewrite <- bpow_plus; apply bpow_le; lia].
      apply Rmult_le_compat; [apply Rabs_pos|apply bpow_ge_0| |now apply bpow_le]. rewrite <- abs_IZR. change (bpow radix2 53) with (IZR 9007199254740992). apply IZR_le. destruct s; cbn [sfZ]; lia. }
    intros k Hk. destruct k as [|[|[|k]]]; [split; [split; reflexivity|apply P; lia]|split; [split; reflexivity|apply P; lia]| |lia].
    split; [apply Z0|]. destruct Z0 as (_ & Z0). change (vget slow3_v 2) with (fofZ 0). rewrite Z0, Rabs_R0. apply bpow_ge_0.
  - eexists. split; [unfold boundaryCollision, objects_loop, plates_loop; rewrite Ho, Hm; cbn [foldM bind fold_left]; reflexivity|]. vm_compute. reflexivity.
Qed.
(** The hypotheses are met: a floor and a wall with friction 1/2, and a node in the corner that moves into both. *)
Definition cornerF (t : PlateType) : @Plate F (Geo2 F) :=
  mkPlate (G := Geo2 F) (fofZ 0) t SlipFree (fofQ 1 2) (fofZ (-1000)) (fofZ 1000) (mkV2 (fofZ 0) (fofZ 0)) (mkV2 (fofZ 0) (fofZ 0)) (fofZ 1) (fofZ 0).
Example C93_ex : forall L, let NF := NumF L in exists v', boundaryCollision perF_p [cornerF pbottom; cornerF pleft] (fofQ 1 100) (fofZ 0) (mkV2 (fofZ 0) (fofZ 0)) (mkV2 (fofZ (-3)) (fofZ (-1))) = Ok v' /\
  0 <= fval (vget v' 0) /\ 0 <= fval (vget v' 1).
Proof.
  intros L NF. unfold NF. clear NF.
  assert (Z0 : ffin (fofZ 0) /\ fval (fofZ 0) = 0) by (apply (fofZ_spec 0); lia).
  assert (Fv : forall z, (-10 <= z <= 10)%Z -> finiteF (bpow radix2 300) (fofZ z)).
  { intros z Hz. destruct (fofZ_spec z) as (A1 & A2); [lia|]. split; auto. rewrite A2. apply Rle_trans with (bpow radix2 10); [|apply bpow_le; lia]. rewrite <- abs_IZR. change (bpow radix2 10) with (IZR 1024). apply IZR_le. lia. }
  assert (Fr : fric_okF (G := Geo2 F) (fofQ 1 2)).
  { assert (E : fofQ 1 2 = S754_finite false 4503599627370496 (-53)) by (vm_compute; reflexivity). rewrite E. split; [split; reflexivity|]. rewrite fval_fin. replace (bpow radix2 (-53)) with (/ 9007199254740992) by (cbn; lra). cbn [sfZ]. split; [|intros C; discriminate]. split; [lra|]. apply Rle_trans with (bpow radix2 0); [cbn; lra|apply bpow_le; lia]. }
  assert (K : forall pl, In pl [cornerF pbottom; cornerF pleft] -> plate_restF (G := Geo2 F) pl /\ fric_okF (G := Geo2 F) (if use_mibf perF_p then fofZ 0 else pl_fric pl)).
  { intros pl [<-|[<-|[]]]; (split; [intros k Hk; destruct k as [|[|k]]; exact Z0|exact Fr]). }
  destruct (C93_resting_plates_partial L (Geo2 F) (or_introl eq_refl) perF_p [cornerF pbottom; cornerF pleft] (fofQ 1 100) (fofZ 0) (mkV2 (fofZ 0) (fofZ 0)) (mkV2 (fofZ (-3)) (fofZ (-1))) eq_refl K) as (v' & E & _ & N).
  { intros k Hk. destruct k as [|[|k]]; apply Fv; lia. }
  exists v'. split; [exact E|]. cbv zeta in N.
  assert (HX : vadd (NA := NumF L) (G := Geo2 F) (mkV2 (fofZ 0) (fofZ 0)) (lscale (NA := NumF L) (G := Geo2 F) (fofQ 1 100) (mkV2 (fofZ (-3)) (fofZ (-1)))) = mkV2 (S754_finite true 8646911284551352 (-58)) (S754_finite true 5764607523034235 (-59))) by (vm_compute; reflexivity).
  rewrite HX in N.
  assert (B58 : bpow radix2 (-58) = / 288230376151711744) by (cbn; lra). assert (B59 : bpow radix2 (-59) = / 576460752303423488) by (cbn; lra).
  assert (FX : forall k, (k < 2)%nat -> finiteF (bpow radix2 300) (vget (Geo := Geo2 F) (mkV2 (S754_finite true 8646911284551352 (-58)) (S754_finite true 5764607523034235 (-59))) k)).
  { intros k Hk. assert (1 <= bpow radix2 300) by (apply Rle_trans with (bpow radix2 0); [cbn; lra|apply bpow_le; lia]). destruct k as [|[|k]]; [| |lia]; (split; [split; reflexivity|cbn [vget Geo2 v2_0 v2_1]; rewrite fval_fin, ?B58, ?B59; cbn [sfZ]; apply Rabs_le; lra]). }
  assert (Lo : ffin (fofZ (-1000)) /\ fval (fofZ (-1000)) = -1000) by (apply (fofZ_spec (-1000)); lia). assert (Up : ffin (fofZ 1000) /\ fval (fofZ 1000) = 1000) by (apply (fofZ_spec 1000); lia).
  assert (BH : forall t, t = pbottom \/ t = pleft -> behindF (G := Geo2 F) (cornerF t) (mkV2 (S754_finite true 8646911284551352 (-58)) (S754_finite true 5764607523034235 (-59)))).
  { intros t Ht. unfold behindF, cornerF. cbv zeta. cbn [pl_type pl_pos pl_lower pl_upper vget Geo2 v2_0 v2_1]. destruct Lo as (_ & ->). destruct Up as (_ & ->). destruct Z0 as (_ & ->). rewrite !fval_fin, B58, B59. cbn [sfZ]. destruct Ht as [-> | ->]; split; lra. }
  pose proof (N (cornerF pbottom) (or_introl eq_refl) FX (Fv 0%Z ltac:(lia)) (proj1 Lo) (proj1 Up) (BH _ (or_introl eq_refl))) as N1.
  pose proof (N (cornerF pleft) (or_intror (or_introl eq_refl)) FX (Fv 0%Z ltac:(lia)) (proj1 Lo) (proj1 Up) (BH _ (or_intror eq_refl))) as N2.
  unfold into_plate in N1, N2. cbn [pl_type cornerF] in N1, N2. split; lra.
Qed.
Print Assumptions C93_resting_plates_partial.
Print Assumptions C93_friction_3D_refuted.
