(** * PropPlateMoveF: C94, one moving plate in double precision, with any friction. *)
From Coq Require Import ZArith Reals Lra Lia List Bool Floats.SpecFloat.
From Flocq Require Import Core.
From Verif Require Import Num NumF NumR Tools Lin Types Objects SpecF SpecGridF SpecPlateF ResProofs FloatBase FloatPbc FloatVel ExSimF PropPbcF FloatGrid PropPlateF.
Import ListNotations.
Local Open Scope R_scope.

Section Move.
  Variable L : Libm.
  Hint Extern 0 (Num F) => exact (NumF L) : typeclass_instances.
  Let B := bpow radix2 300.
  Context {G : Geo F}.
  Hypothesis HG : two_or_threeF G.

  (** Whatever the friction, the normal component is set to zero. *)
  Lemma slide_normal : forall f t w, (dim = 3%nat \/ (t <> pfront /\ t <> pback)) -> vget (plate_slide f t w) (plate_axis t) = @nofZ F (NumF L) 0.
  Proof.
    intros f t w. destruct HG as [E|E]; revert f t w; rewrite E; intros f t w; unfold plate_slide; cbn [dim Geo2 Geo3].
    - intros [C|(C1 & C2)]; [discriminate|]. destruct t; try congruence; reflexivity.
    - intros _. destruct t; cbn [plate_tan plate_axis]; match goal with |- context [plate_fric3 ?a ?b ?c ?d] => destruct (plate_fric3 a b c d) end; reflexivity.
  Qed.
  Lemma two_B : forall a b, Rabs a <= B -> Rabs b <= B -> Rabs (a - b) <= bpow radix2 301 /\ Rabs (a + b) <= bpow radix2 301.
  Proof.
    intros a b Ha Hb. replace (bpow radix2 301) with (2 * B) by (unfold B; replace 301%Z with (1 + 300)%Z by lia; rewrite bpow_plus; reflexivity).
    apply Rabs_le_inv in Ha, Hb. split; apply Rabs_le; lra.
  Qed.
  Lemma big : forall x, Rabs x <= bpow radix2 302 -> Rabs (rnd x) < fmax.
  Proof. intros x H. apply small. eapply Rle_trans; [exact H|apply bpow_le; lia]. Qed.
  (** The rounded relative velocity keeps its sign, and adding the plate's velocity back keeps the order. *)
  Lemma relative : forall v q, finiteF B v -> finiteF B q ->
    ffin (SFsub fprec femax v q) /\ Rabs (fval (SFsub fprec femax v q)) <= bpow radix2 301.
  Proof.
    intros v q (Fv & Bv) (Fq & Bq). destruct (two_B _ _ Bv Bq) as (D & _). destruct (fsub_spec v q Fv Fq) as (F1 & E1).
    - apply big. eapply Rle_trans; [exact D|apply bpow_le; lia].
    - split; auto. rewrite E1. apply Rabs_le_inv in D. apply Rabs_le. assert (R : rnd (bpow radix2 301) = bpow radix2 301) by (unfold rnd; apply round_generic; [apply valid_rnd_N|]; apply generic_format_bpow; vm_compute; discriminate).
      split; [rewrite <- R, <- rnd_opp; apply rnd_mono; lra|rewrite <- R; apply rnd_mono; lra].
  Qed.
  Lemma back : forall w q, ffin w -> Rabs (fval w) <= bpow radix2 301 -> finiteF B q ->
    ffin (SFadd fprec femax w q) /\ (0 <= fval w -> fval q <= fval (SFadd fprec femax w q)) /\ (fval w <= 0 -> fval (SFadd fprec femax w q) <= fval q).
  Proof.
    intros w q Fw Bw (Fq & Bq). destruct (fadd_spec w q Fw Fq) as (F1 & E1).
    - apply big. replace (bpow radix2 302) with (2 * bpow radix2 301) by (replace 302%Z with (1 + 301)%Z by lia; rewrite bpow_plus; reflexivity).
      assert (B <= bpow radix2 301) by (apply bpow_le; lia). apply Rabs_le_inv in Bw, Bq. apply Rabs_le. lra.
    - split; auto. rewrite E1. split; intros H; rewrite <- (rnd_id q Fq) at 1; [|rewrite <- (rnd_id q Fq) at 2]; apply rnd_mono; try (rewrite (rnd_id q Fq)); lra.
  Qed.
  Definition real_plate (pl : Plate F) : Prop := dim = 3%nat \/ (pl_type pl <> pfront /\ pl_type pl <> pback).
  Lemma axis_ok : forall pl, real_plate pl -> (plate_axis (pl_type pl) < dim)%nat.
  Proof.
    intros pl Hd. assert (D : (0 < dim)%nat /\ (1 < dim)%nat) by (destruct (dimF G HG) as [Dd|Dd]; rewrite Dd; lia). destruct D as (D0 & D1).
    destruct Hd as [Dd|(C1 & C2)]; [rewrite Dd; destruct (pl_type pl); cbn; lia|destruct (pl_type pl); cbn; auto; congruence].
  Qed.
  Lemma collide_moving : forall (mibf : bool) nfr pl v, (forall k, (k < dim)%nat -> finiteF B (vget (pl_v pl) k)) -> (forall k, (k < dim)%nat -> finiteF B (vget v k)) -> real_plate pl ->
    ffin (vget (plate_collide mibf nfr pl v) (plate_axis (pl_type pl))) /\ into_plate pl (plate_collide mibf nfr pl v) <= into_plate pl (pl_v pl).
  Proof.
    intros mibf nfr pl v Hq Hv Hd. pose proof (axis_ok pl Hd) as K. set (n := plate_axis (pl_type pl)) in *. destruct (zeroF L) as (F0 & E0).
    unfold plate_collide. cbv zeta. set (fr := if mibf then nfr else pl_fric pl). destruct (relative _ _ (Hv n K) (Hq n K)) as (Fw & Bw).
    assert (Ew : vget (vsub v (pl_v pl)) n = SFsub fprec femax (vget v n) (vget (pl_v pl) n)) by (unfold vsub; now rewrite vgetF by auto).
    assert (Bz : Rabs (fval (@nofZ F (NumF L) 0)) <= bpow radix2 301) by (rewrite E0, Rabs_R0; apply bpow_ge_0).
    rewrite <- Ew in Fw, Bw. set (w := vsub v (pl_v pl)) in *.
    set (w' := match pl_bc pl with NoSlip => vzero | SlipStick => plate_slide fr (pl_type pl) w | SlipFree => if plate_towards (pl_type pl) w then plate_slide fr (pl_type pl) w else w end).
    assert (Q : ffin (vget w' n) /\ Rabs (fval (vget w' n)) <= bpow radix2 301 /\ into_plate pl w' <= 0).
    { assert (ZZ : forall u, vget u n = @nofZ F (NumF L) 0 -> ffin (vget u n) /\ Rabs (fval (vget u n)) <= bpow radix2 301 /\ into_plate pl u <= 0).
      { intros u Eu. rewrite Eu. split; [exact F0|]. split; [exact Bz|]. pose proof (f_equal fval Eu) as Ev. rewrite E0 in Ev. unfold into_plate. unfold n in Ev. destruct (pl_type pl); cbn [plate_axis] in Ev; rewrite Ev; lra. }
      pose proof (ZZ _ (slide_normal fr (pl_type pl) w Hd)) as S.
      unfold w'. destruct (pl_bc pl); auto.
      - apply ZZ. unfold vzero. now rewrite vgetF by auto.
      - destruct (plate_towards (pl_type pl) w) eqn:T; auto. split; [exact Fw|]. split; [exact Bw|].
        unfold into_plate. unfold n in *. destruct (pl_type pl); cbn [plate_towards plate_axis] in *; change (@nltb F (NumF L)) with SFltb in T; rewrite flt_spec in T by auto; rewrite E0 in T; revert T; (case Rlt_bool_spec; [discriminate|intros; lra]). }
    destruct Q as (Q1 & Q2 & Q3). destruct (back _ _ Q1 Q2 (Hq n K)) as (Fr & Lo & Up).
    assert (Ev : vget (vadd w' (pl_v pl)) n = SFadd fprec femax (vget w' n) (vget (pl_v pl) n)) by (unfold vadd; now rewrite vgetF by auto).
    rewrite <- Ev in Fr, Lo, Up. split; [exact Fr|]. unfold into_plate in *. unfold n in *. destruct (pl_type pl); cbn [plate_axis] in *; first [specialize (Lo ltac:(lra)); lra|specialize (Up ltac:(lra)); lra].
  Qed.
  Lemma stick_exact : forall (mibf : bool) nfr pl v k, pl_bc pl = NoSlip -> (k < dim)%nat -> finiteF B (vget (pl_v pl) k) ->
    ffin (vget (plate_collide mibf nfr pl v) k) /\ fval (vget (plate_collide mibf nfr pl v) k) = fval (vget (pl_v pl) k).
  Proof.
    intros mibf nfr pl v k Hb Hk Hq. destruct (zeroF L) as (F0 & E0). unfold plate_collide. cbv zeta. rewrite Hb. unfold vadd, vzero. rewrite !vgetF by auto.
    destruct (back _ _ F0 ltac:(rewrite E0, Rabs_R0; apply bpow_ge_0) Hq) as (Fr & Lo & Up). rewrite E0 in Lo, Up. split; [exact Fr|]. apply Rle_antisym; [apply Up|apply Lo]; lra.
  Qed.
  Lemma stick_normal : forall (mibf : bool) nfr pl v, pl_bc pl <> SlipFree -> real_plate pl -> finiteF B (vget (pl_v pl) (plate_axis (pl_type pl))) ->
    into_plate pl (plate_collide mibf nfr pl v) = into_plate pl (pl_v pl).
  Proof.
    intros mibf nfr pl v Hb Hd Hq. pose proof (axis_ok pl Hd) as K. destruct (zeroF L) as (F0 & E0).
    assert (E : fval (vget (plate_collide mibf nfr pl v) (plate_axis (pl_type pl))) = fval (vget (pl_v pl) (plate_axis (pl_type pl)))).
    { destruct (back _ _ F0 ltac:(rewrite E0, Rabs_R0; apply bpow_ge_0) Hq) as (_ & Lo & Up). rewrite E0 in Lo, Up.
      unfold plate_collide. cbv zeta. unfold vadd. rewrite vgetF by auto. destruct (pl_bc pl); [|rewrite slide_normal by exact Hd|congruence].
      - unfold vzero. rewrite vgetF by auto. apply Rle_antisym; [apply Up|apply Lo]; lra.
      - apply Rle_antisym; [apply Up|apply Lo]; lra. }
    unfold into_plate. destruct (pl_type pl); cbn [plate_axis] in E; rewrite E; reflexivity.
  Qed.
End Move.

(** One plate that moves at any velocity, with any friction coefficient (even one that makes the tangential velocity a NaN): a node
    behind it never ends up moving into it relative to the plate, without a rounding error; at a no-slip plate the node takes
    exactly the velocity of the plate. *)
Theorem C94_one_moving_plate : forall (L : Libm) (G : Geo F), two_or_threeF G ->
  forall (p : Par F) (pl : Plate F) (dt nfr : F) (Xi vi : TV), let NF := NumF L in let B := bpow radix2 300 in let X := vadd Xi (lscale dt vi) in
  objects p = [] -> (forall k, (k < dim)%nat -> finiteF B (vget (pl_v pl) k) /\ finiteF B (vget vi k) /\ finiteF B (vget X k)) ->
  finiteF B (pl_pos pl) -> ffin (pl_lower pl) -> ffin (pl_upper pl) -> behindF pl X ->
  exists v', boundaryCollision p [pl] dt nfr Xi vi = Ok v' /\ into_plate pl v' <= into_plate pl (pl_v pl) /\
    (pl_bc pl = NoSlip -> forall k, (k < dim)%nat -> ffin (vget v' k) /\ fval (vget v' k) = fval (vget (pl_v pl) k)).
Proof.
  intros L G HG p pl dt nfr Xi vi NF B X Ho Hf HP Hl Hu Hb. unfold NF in *. clear NF.
  destruct (inside_ok L HG pl X (fun k Hk => proj2 (proj2 (Hf k Hk))) HP Hl Hu Hb) as (In1 & Hd).
  eexists. split; [unfold boundaryCollision, objects_loop; rewrite Ho; reflexivity|]. unfold plates_loop. cbn [fold_left]. fold X. rewrite In1. split.
  - apply (collide_moving L HG (use_mibf p) nfr pl vi (fun k Hk => proj1 (Hf k Hk)) (fun k Hk => proj1 (proj2 (Hf k Hk))) Hd).
  - intros Hbc k Hk. apply (stick_exact L HG); auto. apply (Hf k Hk).
Qed.
(** Several plates: whatever the earlier ones did to the velocity (also overflow or a NaN), at the last plate of the list, if it is a
    sticking or no-slip plate, the normal velocity is exactly that of the plate.  Nothing is assumed about the velocity [vi] or the
    other plates. *)
Theorem C94_last_plate : forall (L : Libm) (G : Geo F), two_or_threeF G ->
  forall (p : Par F) (others : list (Plate F)) (pl : Plate F) (dt nfr : F) (Xi vi : TV), let NF := NumF L in let B := bpow radix2 300 in let X := vadd Xi (lscale dt vi) in
  objects p = [] -> pl_bc pl <> SlipFree -> (forall k, (k < dim)%nat -> finiteF B (vget (pl_v pl) k) /\ finiteF B (vget X k)) ->
  finiteF B (pl_pos pl) -> ffin (pl_lower pl) -> ffin (pl_upper pl) -> behindF pl X ->
  exists v', boundaryCollision p (others ++ [pl]) dt nfr Xi vi = Ok v' /\ into_plate pl v' = into_plate pl (pl_v pl) /\
    (pl_bc pl = NoSlip -> forall k, (k < dim)%nat -> ffin (vget v' k) /\ fval (vget v' k) = fval (vget (pl_v pl) k)).
Proof.
  intros L G HG p others pl dt nfr Xi vi NF B X Ho Hbc Hf HP Hl Hu Hb. unfold NF in *. clear NF.
  destruct (inside_ok L HG pl X (fun k Hk => proj2 (Hf k Hk)) HP Hl Hu Hb) as (In1 & Hd).
  eexists. split; [unfold boundaryCollision, objects_loop; rewrite Ho; reflexivity|]. unfold plates_loop. rewrite fold_left_app. cbn [fold_left]. fold X. rewrite In1. split.
  - apply (stick_normal L HG); auto. apply Hf. now apply (axis_ok HG).
  - intros Hn k Hk. apply (stick_exact L HG); auto. apply (Hf k Hk).
Qed.
(** The hypotheses are met: in 3D, a floor with friction 1 that rises at speed 2, and a node below it that falls at speed 3. *)
Definition risingF : @Plate F (Geo3 F) :=
  mkPlate (G := Geo3 F) (fofZ 0) pbottom SlipFree (fofZ 1) (fofZ (-1000)) (fofZ 1000) (mkV3 (fofZ 0) (fofZ 2) (fofZ 0)) (mkV3 (fofZ 0) (fofZ 2) (fofZ 0)) (fofZ 1) (fofZ 0).
Example C94_ex : forall (L : Libm) (p : @Par F (Geo3 F)), let NF := NumF L in objects p = [] ->
  exists v', boundaryCollision (G := Geo3 F) p [risingF] (fofZ 1) (fofZ 0) (mkV3 (fofZ 0) (fofZ 0) (fofZ 0)) (mkV3 (fofZ 1) (fofZ (-3)) (fofZ 0)) = Ok v' /\ 2 <= fval (vget (Geo := Geo3 F) v' 1).
Proof.
  intros L p NF Ho. unfold NF. clear NF.
  assert (Fv : forall z, (-1000 <= z <= 1000)%Z -> finiteF (bpow radix2 300) (fofZ z) /\ fval (fofZ z) = IZR z).
  { intros z Hz. destruct (fofZ_spec z) as (A1 & A2); [lia|]. split; auto. split; auto. rewrite A2. apply Rle_trans with (bpow radix2 10); [|apply bpow_le; lia]. rewrite <- abs_IZR. change (bpow radix2 10) with (IZR 1024). apply IZR_le. lia. }
  assert (HX : vadd (NA := NumF L) (G := Geo3 F) (mkV3 (fofZ 0) (fofZ 0) (fofZ 0)) (lscale (NA := NumF L) (G := Geo3 F) (fofZ 1) (mkV3 (fofZ 1) (fofZ (-3)) (fofZ 0))) = mkV3 (fofZ 1) (fofZ (-3)) (fofZ 0)) by (vm_compute; reflexivity).
  destruct (C94_one_moving_plate L (Geo3 F) (or_intror eq_refl) p risingF (fofZ 1) (fofZ 0) (mkV3 (fofZ 0) (fofZ 0) (fofZ 0)) (mkV3 (fofZ 1) (fofZ (-3)) (fofZ 0)) Ho) as (v' & E & N & _).
  - rewrite HX. intros k Hk. destruct k as [|[|[|k]]]; [| | |cbn in Hk; lia]; (split; [|split]; apply Fv; lia).
  - apply (Fv 0%Z); lia.
  - apply (Fv (-1000)%Z); lia.
  - apply (Fv 1000%Z); lia.
  - rewrite HX. change (fval (fofZ (-1000)) < fval (fofZ 1) < fval (fofZ 1000) /\ fval (fofZ (-3)) <= fval (fofZ 0)).
    destruct (Fv 1%Z ltac:(lia)) as (_ & ->). destruct (Fv (-1000)%Z ltac:(lia)) as (_ & ->). destruct (Fv 1000%Z ltac:(lia)) as (_ & ->). destruct (Fv (-3)%Z ltac:(lia)) as (_ & ->). destruct (Fv 0%Z ltac:(lia)) as (_ & ->). lra.
  - exists v'. split; [exact E|]. unfold into_plate in N. cbn [pl_type pl_v risingF] in N. change (vget (Geo := Geo3 F) (mkV3 (fofZ 0) (fofZ 2) (fofZ 0)) 1) with (fofZ 2) in N. destruct (Fv 2%Z ltac:(lia)) as (_ & Q). rewrite Q in N. lra.
Qed.
Print Assumptions C94_one_moving_plate.
(** Two plates: the rising floor of [C94_ex], then a no-slip floor that falls at speed 1. *)
Definition fallingF : @Plate F (Geo3 F) :=
  mkPlate (G := Geo3 F) (fofZ 0) pbottom NoSlip (fofZ 1) (fofZ (-1000)) (fofZ 1000) (mkV3 (fofZ 0) (fofZ (-1)) (fofZ 0)) (mkV3 (fofZ 0) (fofZ (-1)) (fofZ 0)) (fofZ 1) (fofZ 0).
Example C94_last_ex : forall (L : Libm) (p : @Par F (Geo3 F)), let NF := NumF L in objects p = [] ->
  exists v', boundaryCollision (G := Geo3 F) p [risingF; fallingF] (fofZ 1) (fofZ 0) (mkV3 (fofZ 0) (fofZ 0) (fofZ 0)) (mkV3 (fofZ 1) (fofZ (-3)) (fofZ 0)) = Ok v' /\ fval (vget (Geo := Geo3 F) v' 1) = -1.
Proof.
  intros L p NF Ho. unfold NF. clear NF.
  assert (Fv : forall z, (-1000 <= z <= 1000)%Z -> finiteF (bpow radix2 300) (fofZ z) /\ fval (fofZ z) = IZR z).
  { intros z Hz. destruct (fofZ_spec z) as (A1 & A2); [lia|]. split; auto. split; auto. rewrite A2. apply Rle_trans with (bpow radix2 10); [|apply bpow_le; lia]. rewrite <- abs_IZR. change (bpow radix2 10) with (IZR 1024). apply IZR_le. lia. }
  assert (HX : vadd (NA := NumF L) (G := Geo3 F) (mkV3 (fofZ 0) (fofZ 0) (fofZ 0)) (lscale (NA := NumF L) (G := Geo3 F) (fofZ 1) (mkV3 (fofZ 1) (fofZ (-3)) (fofZ 0))) = mkV3 (fofZ 1) (fofZ (-3)) (fofZ 0)) by (vm_compute; reflexivity).
  destruct (C94_last_plate L (Geo3 F) (or_intror eq_refl) p [risingF] fallingF (fofZ 1) (fofZ 0) (mkV3 (fofZ 0) (fofZ 0) (fofZ 0)) (mkV3 (fofZ 1) (fofZ (-3)) (fofZ 0)) Ho) as (v' & E & _ & N).
  - discriminate.
  - rewrite HX. intros k Hk. destruct k as [|[|[|k]]]; [| | |cbn in Hk; lia]; (split; apply Fv; lia).
  - apply (Fv 0%Z); lia.
  - apply (Fv (-1000)%Z); lia.
  - apply (Fv 1000%Z); lia.
  - rewrite HX. change (fval (fofZ (-1000)) < fval (fofZ 1) < fval (fofZ 1000) /\ fval (fofZ (-3)) <= fval (fofZ 0)).
    destruct (Fv 1%Z ltac:(lia)) as (_ & ->). destruct (Fv (-1000)%Z ltac:(lia)) as (_ & ->). destruct (Fv 1000%Z ltac:(lia)) as (_ & ->). destruct (Fv (-3)%Z ltac:(lia)) as (_ & ->). destruct (Fv 0%Z ltac:(lia)) as (_ & ->). lra.
  - exists v'. split; [exact E|]. destruct (N eq_refl 1%nat ltac:(cbn; lia)) as (_ & Q). rewrite Q. change (vget (Geo := Geo3 F) (pl_v fallingF) 1) with (fofZ (-1)). apply (Fv (-1)%Z). lia.
Qed.
Print Assumptions C94_last_plate.
