(** * PropBackPbcF: C90 in periodic simulations. *)
From Coq Require Import ZArith Reals Lra Lia List Bool Floats.SpecFloat Permutation.
From Flocq Require Import Core.
From Verif Require Import Num NumF NumR Tools Lin Types Remesh Transfer Sampling Spec SpecF SpecGridF SpecMassF SpecBackF ResProofs PlasticModels LinProofs GridProofs P2GProofs PloopProofs StepProofs FloatBase FloatGrid FloatKernel FloatCont FloatPbc FloatSum FloatVel FloatGather ExSimF PropGridF PropGridLater PropPbcF PropMassF PropVelF PropBackF.
Import ListNotations.
Local Open Scope R_scope.

(** On the periodic grid, with the exceptions of C87 (a particle within rounding of height zero or of the margins); the period is
    at least two cells. *)
Theorem C90_periodic_partial : forall (L : Libm) (G : Geo F), two_or_threeF G ->
  forall plast (af : nat) (M U : R) (p : Par F) (P P1 P2 : Particles F) (n : nat) axes nodes dt o1 o2 f1 f2, let NF := NumF L in
  cloud_okF L M p (p_x P) -> box_okF M p -> 2 * fval (dx p) <= fval (Lx p) -> (forall x, In x (p_x P) -> 0 <= fval (vget x 0) <= fval (Lx p) /\ near_boxF M p x) ->
  consistent P n -> spline p = Deg2 -> use_pbc p = true -> change_pos p = false ->
  remeshFixed af p 4 = Ok axes -> (prodlen axes <= 4294967295)%Z -> nodes_okF L U p axes nodes -> dt_okF U p dt ->
  Permutation o1 (seq 0 n) -> Permutation o2 (seq 0 n) -> g2p plast p axes nodes dt o1 P = Ok (P1, f1) -> positionUpdate p dt o2 P1 = Ok (P2, f2) ->
  read_back_periodicF M U p dt P P1 P2.
Proof.
  intros L G HG plast af M U p P P1 P2 n axes nodes dt o1 o2 f1 f2 NF Hc Hb HL Hx HC Hs Hpb Hch H Hp Hn Hd Ho1 Ho2 H1 H2. unfold NF in *. clear NF.
  pose proof (fixed_axes L G HG af M p (p_x P) axes Hc Hb (fun x Ix => proj2 (Hx x Ix)) H) as Ha.
  destruct (consistent_pack _ _ HC) as (l & <- & ->).
  destruct (loop_cells _ _ _ _ _ Ho1 H1) as (l1 & -> & L1 & K1). rewrite <- L1 in Ho2. destruct (loop_cells _ _ _ _ _ Ho2 H2) as (l2 & -> & L2 & K2).
  assert (Inx : forall i q, nth_error l i = Some q -> In (q_x q) (p_x (pack l))) by (intros i q Hq; cbn; apply in_map, nth_error_In with i; auto).
  assert (J : forall i q1, nth_error l1 i = Some q1 -> exists q fl, nth_error l i = Some q /\ g2p_particle (NA := NumF L) plast p axes nodes dt q = Ok (q1, fl)).
  { intros i q1 Hq1. assert (Hi : (i < length l)%nat) by (rewrite <- L1; apply nth_error_Some; congruence). destruct (nth_error l i) as [q|] eqn:E; [|apply nth_error_None in E; lia]. destruct (K1 i q E) as (r & Hr & Er & _). rewrite Hq1 in Er. injection Er as ->. exists q, (snd r). destruct r; auto. }
  pose proof (back_particle L HG M U p axes _ nodes Hc Ha Hp Hs Hn plast dt) as Bk.
  pose proof (moved_by L HG M U p axes _ nodes Hc Hn dt) as Mv.
  pose proof (e_range L M p _ Hc) as (E1 & E2). pose proof (h_pos' L M p _ Hc) as H0. pose proof (U_pos L U p axes nodes Hn) as U0.
  unfold read_back_periodicF. cbv zeta. set (e := bpow radix2 (-52) * (M + 8) ^ 2) in *. set (h := fval (dx p)) in *. split; [|split].
  - intros v k Hv Hk. cbn in Hv. apply in_map_iff in Hv. destruct Hv as (q1 & <- & Hq1). apply In_nth_error in Hq1. destruct Hq1 as (i & Hq1). destruct (J i q1 Hq1) as (q & fl & Hq & B). destruct (Bk _ _ _ (Inx i q Hq) B) as (_ & _ & Kp & _). auto.
  - intros B k m HB Hk Hm. cbn in HB. apply in_map_iff in HB. destruct HB as (q1 & <- & Hq1). apply In_nth_error in Hq1. destruct Hq1 as (i & Hq1). destruct (J i q1 Hq1) as (q & fl & Hq & B0). destruct (Bk _ _ _ (Inx i q Hq) B0) as (_ & _ & _ & Kb). auto.
  - intros i x y Ex Ey. cbn in Ex, Ey. rewrite nth_error_map in Ex, Ey. destruct (nth_error l i) as [q|] eqn:Eq; [|discriminate]. cbn in Ex. injection Ex as <-.
    destruct (nth_error l2 i) as [q2|] eqn:Eq2; [|discriminate]. cbn in Ey. injection Ey as <-.
    destruct (K1 i q Eq) as ((q1, g1) & B1 & Er1 & _). cbn [fst] in Er1. destruct (K2 i q1 Er1) as ((q2', g2) & B2 & Er2 & _). cbn [fst] in Er2. rewrite Eq2 in Er2. injection Er2 as <-.
    destruct (Bk _ _ _ (Inx i q Eq) B1) as (X1 & _ & Kp & _).
    pose proof (Mv q1 (eq_ind_r (fun z => In z _) (Inx i q Eq) X1) Hd Kp) as Q. rewrite X1 in Q. set (y := vadd (NA := NumF L) (q_x q) (lscale (NA := NumF L) dt (q_pic q1))) in *.
    assert (X : q_x q2 = pbc_wrap (NA := NumF L) p y).
    { unfold pos_particle in B2. cbv zeta in B2. apply Ok_inj in B2. apply pair_equal_spec in B2. destruct B2 as (<- & _). unfold pos_hack. rewrite Hch, X1. destruct (use_musl p); reflexivity. }
    rewrite X. assert (D0 : (0 < dim)%nat) by (destruct (dimF G HG); lia). destruct (Q 0%nat D0) as (F0 & B0).
    destruct (Hx _ (Inx i q Eq)) as (Px & _). destruct Hd as (_ & Dt0 & Dt1). fold h in Dt1, B0.
    assert (eh : 84 * e * h <= h) by (rewrite <- (Rmult_1_l h) at 2; apply Rmult_le_compat_r; lra). apply Rabs_le_inv in B0.
    destruct (C87_wrap L G HG M p y (cl_M _ _ _ _ Hc) (cl_dx _ _ _ _ Hc) (proj1 Hb) Hpb F0) as (W1 & W2 & W3 & W4); [lra|].
    split.
    + split; [exact W1|]. split; [exact W2|].
      assert (Me : bpow radix2 (-52) * (M * fval (dx p)) <= e * h).
      { fold h. unfold e. rewrite <- Rmult_assoc. apply Rmult_le_compat_r; [lra|]. apply Rmult_le_compat_l; [apply bpow_ge_0|]. pose proof (cl_M _ _ _ _ Hc). cbn [pow]. nra. }
      assert (0 <= e * h) by (apply Rmult_le_pos; [|lra]; pose proof eps_pos; lra). replace (85 * e * h) with (84 * e * h + e * h) by ring.
      destruct W3 as [-> |[-> |W3]]; [exists 0|exists (- fval (Lx p))|exists (fval (Lx p)); apply Rabs_le_inv in W3]; (split; [auto|apply Rabs_le; lra]).
    + intros k Hk. rewrite (W4 k Hk). apply Q. lia.
Qed.
(** The particle of [C87_ex] on a grid that moves to the left: it leaves the period and comes back at the other end. *)
Section Ex.
  Local Instance nfpb : Num F := NumF ExSimF.libm0.
  Local Existing Instance Geo2.
  Definition pbkF_P : @Particles F (Geo2 F) :=
    mkParticles [perF_x] [vzero] [vzero] [vzero] [mkHist (fofZ 0) (fofZ 0) (fofZ 0) (fofZ 0) (fofZ 0) (fofZ 0)] [mident] [mzero] [mzero].
  Definition pbkF_nodes (axes : list (Axis F)) : list (@Node F (Geo2 F)) := map (fun nd => mkNode (nd_m nd) (mkV2 (fofZ (-2)) (fofZ 1)) (nd_flip nd) (nd_f nd) (nd_fr nd)) (resizeGrid axes).
  Definition pbkF_dt : F := fofQ 3 64.
  Example C90_periodic_ex : exists axes P1 P2 f1 f2, remeshFixed 40 perF_p 4 = Ok axes /\ nodes_okF ExSimF.libm0 2 perF_p axes (pbkF_nodes axes) /\
    g2p still perF_p axes (pbkF_nodes axes) pbkF_dt [0]%nat pbkF_P = Ok (P1, f1) /\ positionUpdate perF_p pbkF_dt [0]%nat P1 = Ok (P2, f2) /\
    read_back_periodicF 20 2 perF_p pbkF_dt pbkF_P P1 P2 /\ SFltb (fofQ 9 10) (vget (nth 0 (p_x P2) vzero) 0) = true.
  Proof.
    assert (K : exists r, (axes <- remeshFixed 40 perF_p 4 ;; r1 <- g2p still perF_p axes (pbkF_nodes axes) pbkF_dt [0]%nat pbkF_P ;; r2 <- positionUpdate perF_p pbkF_dt [0]%nat (fst r1) ;; Ok (axes, fst r1, fst r2)) = Ok r /\ ((prodlen (fst (fst r)) <=? 4294967295)%Z && SFltb (fofQ 9 10) (vget (nth 0 (p_x (snd r)) vzero) 0))%bool = true) by (apply ok_intro; vm_compute; reflexivity).
    destruct K as (((axes & P1) & P2) & E & K). apply andb_true_iff in K. destruct K as (K & Kx). cbn [fst snd] in K, Kx. apply Z.leb_le in K.
    apply bind_Ok in E. destruct E as (axes' & Ea & E). apply bind_Ok in E. destruct E as ((P1' & f1) & E1 & E). apply bind_Ok in E. destruct E as ((P2' & f2) & E2 & E).
    cbn [fst] in E2, E. apply Ok_inj in E. apply pair_equal_spec in E. destruct E as (E & <-). apply pair_equal_spec in E. destruct E as (<- & <-).
    destruct (perF_ok ExSimF.libm0) as (Hc & Hb & Hi & Hn). destruct perF_vals as ((Fd & Vd) & (F0 & V0) & (F1 & V1)).
    assert (Sx : ffin (Lx perF_p) /\ fval (Lx perF_p) = 1) by (apply (fofZ_spec 1); lia).
    assert (HN : nodes_okF ExSimF.libm0 2 perF_p axes' (pbkF_nodes axes')).
    { constructor.
      - unfold pbkF_nodes. apply map_length.
      - split; [apply Rle_trans with (bpow radix2 0); [apply bpow_le; lia|cbn; lra]|apply Rle_trans with (bpow radix2 1); [cbn; lra|apply bpow_le; lia]].
      - rewrite Vd. split; [apply Rle_trans with (bpow radix2 (-3)); [apply bpow_le; lia|cbn; lra]|apply Rle_trans with (bpow radix2 0); [cbn; lra|apply bpow_le; lia]].
      - intros nd k Hin Hk. unfold pbkF_nodes in Hin. apply in_map_iff in Hin. destruct Hin as (nd0 & <- & _). cbn [nd_v].
        destruct k as [|[|k]]; [change (ffin (fofZ (-2)) /\ Rabs (fval (fofZ (-2))) <= 2); destruct (fofZ_spec (-2)) as (A1 & A2); [lia|]|change (ffin (fofZ 1) /\ Rabs (fval (fofZ 1)) <= 2); destruct (fofZ_spec 1) as (A1 & A2); [lia|]|cbn in Hk; lia]; (split; [exact A1|rewrite A2; apply Rabs_le; lra]). }
    assert (Hd : dt_okF 2 perF_p pbkF_dt).
    { assert (Ed : pbkF_dt = S754_finite false 6755399441055744 (-57)) by (vm_compute; reflexivity). split; [rewrite Ed; split; reflexivity|]. rewrite Vd, Ed, fval_fin. replace (bpow radix2 (-57)) with (/ 144115188075855872) by (cbn; lra). cbn [sfZ]. lra. }
    exists axes', P1', P2', f1, f2. split; [exact Ea|]. split; [exact HN|]. split; [exact E1|]. split; [exact E2|]. split; [|exact Kx].
    assert (HC : consistent pbkF_P 1) by (constructor; reflexivity).
    refine (C90_periodic_partial ExSimF.libm0 (Geo2 F) (or_introl eq_refl) still 40 20 2 perF_p pbkF_P P1' P2' 1 axes' _ pbkF_dt [0]%nat [0]%nat f1 f2 Hc Hb _ _ HC eq_refl eq_refl eq_refl Ea K HN Hd (Permutation_refl _) (Permutation_refl _) E1 E2).
    - rewrite Vd. destruct Sx as (_ & ->). lra.
    - intros x [<-|[]]. split; [rewrite V0; destruct Sx as (_ & ->); lra|exact Hn].
  Qed.
End Ex.
Print Assumptions C90_periodic_partial.
