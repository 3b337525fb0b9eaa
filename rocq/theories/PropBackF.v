(** * PropBackF: C90, what particles read back from the grid in double precision, and how far they move. *)
From Coq Require Import ZArith Reals Lra Lia List Bool Floats.SpecFloat Permutation.
From Flocq Require Import Core.
From Verif Require Import Num NumF NumR Tools Lin Types Remesh Transfer Sampling Spec SpecF SpecGridF SpecMassF SpecBackF ResProofs PlasticModels LinProofs GridProofs P2GProofs PloopProofs StepProofs FloatBase FloatGrid FloatKernel FloatCont FloatPbc FloatSum FloatVel FloatGather ExSimF PropGridF PropGridLater PropPbcF PropMassF PropVelF.
Import ListNotations.
Local Open Scope R_scope.

(** A loop over particles is one update of each particle (as in PropThreads.v). *)
Section Cells.
  Context {A : Type} {NA : Num A} {G : Geo A}.

  Lemma sum_zero : forall l x, list_sum l = 0%nat -> In x l -> x = 0%nat.
  Proof. unfold list_sum. induction l as [|a l IH]; intros x H K; [contradiction|]. cbn in H. destruct K as [->|K]; [lia|]. apply IH; auto. lia. Qed.
  Lemma loop_cells : forall (body : P1 A -> res (P1 A * Flags)) order l P' fl, Permutation order (seq 0 (length l)) -> ploop body order (pack l) = Ok (P', fl) ->
    exists l', P' = pack l' /\ length l' = length l /\ (forall i q, nth_error l i = Some q -> exists r, body q = Ok r /\ nth_error l' i = Some (fst r) /\
      (fst fl = false -> fst (snd r) = false) /\ (snd fl = 0%nat -> snd (snd r) = 0%nat)).
  Proof.
    intros body order l P' fl Hp H. apply (ploop_Ok body order l) in H; auto. destruct H as (rs & M & E). unfold results in E. injection E as -> ->.
    apply mapM_Ok in M. exists (map fst rs). split; auto. split; [rewrite map_length; symmetry; eapply F2_length; eauto|].
    intros i q Hq. destruct (Forall2_nth_error _ _ _ _ _ M i q Hq) as (r & Er & Br). exists r. split; auto. split; [rewrite nth_error_map, Er; reflexivity|].
    apply nth_error_In in Er. cbn [fst snd]. split.
    - intros K. destruct (fst (snd r)) eqn:F; auto. rewrite <- K. symmetry. apply existsb_exists. eauto.
    - intros K. eapply sum_zero; [exact K|]. apply in_map_iff. eauto.
  Qed.
End Cells.

Section Back.
  Variable L : Libm.
  Hint Extern 0 (Num F) => exact (NumF L) : typeclass_instances.
  Context {G : Geo F}.
  Hypothesis HG : two_or_threeF G.
  Variable M U : R.
  Variable p : Par F.
  Variable axes : list (Axis F).
  Variable xs : list TV.
  Variable nodes : list (Node F).
  Hypothesis Hc : cloud_okF L M p xs.
  Hypothesis Ha : axes_okF M p xs axes.
  Hypothesis Hp : (prodlen axes <= 4294967295)%Z.
  Hypothesis Hs : spline p = Deg2.
  Hypothesis Hn : nodes_okF L U p axes nodes.
  Let h := fval (dx p).
  Let e := bpow radix2 (-52) * (M + 8) ^ 2.

  Lemma e_range : 81 * eps <= e <= 1/4000.
  Proof.
    pose proof (cl_M L M p xs Hc) as HM. pose proof eps_pos as E0. unfold e. rewrite <- eps_bpow. cbn [pow]. rewrite Rmult_1_r. split; [rewrite (Rmult_comm 81); apply Rmult_le_compat_l; [lra|nra]|].
    assert ((M + 8) * (M + 8) <= 1048584 * 1048584) by (apply Rmult_le_compat; lra). unfold eps in *. lra.
  Qed.
  Lemma items64 : (Nat.pow 4 dim <= 64)%nat.
  Proof. destruct (dimF G HG) as [D|D]; rewrite D; cbn; lia. Qed.
  Lemma U_pos : 0 < U.
  Proof. pose proof (nk_U L U p axes nodes Hn). pose proof (bpow_gt_0 radix2 (-300)). lra. Qed.
  Lemma h_pos' : 0 < h.
  Proof. apply (h_pos p (cl_dx L M p xs Hc)). Qed.

  Lemma weights_total : forall x items, In x xs -> stencil (base_p2g (NA := NumF L)) p axes x = Ok items -> length items = Nat.pow 4 dim ->
    0 <= wsum items <= 1 + 69 * e /\ wsum items * (1 + 4 * eps) ^ (length items) <= 1 + 83 * e.
  Proof.
    intros x items Hx S1 Ln. destruct (axes_weights L G HG M p xs axes x items Hc Ha Hs Hx S1) as (W1 & W2). pose proof e_range as (E1 & E2). pose proof eps_pos as E0. pose proof tw_pos as T0. fold e in W2.
    replace (68 * bpow radix2 (-52) * (M + 8) ^ 2) with (68 * e) in W2 by (unfold e; ring).
    assert (Q : wsum items = Rsum (fun it => fval (it_w it)) items + INR (length items) * tw) by (unfold wsum; rewrite Rsum_plus, Rsum_const; reflexivity).
    assert (Il : 0 <= INR (length items) <= 64) by (split; [apply pos_INR|]; rewrite Ln; replace 64 with (INR 64) by (cbn; lra); apply le_INR, items64).
    assert (Tt : 64 * tw <= e). { apply Rle_trans with (81 * eps); auto. rewrite eps_bpow. unfold tw. assert (bpow radix2 (-300) <= bpow radix2 (-52)) by (apply bpow_le; lia). pose proof (bpow_gt_0 radix2 (-52)). lra. }
    assert (Lt : INR (length items) * tw <= e) by (apply Rle_trans with (64 * tw); auto; apply Rmult_le_compat_r; lra).
    assert (Lt0 : 0 <= INR (length items) * tw) by (apply Rmult_le_pos; lra).
    apply Rabs_le_inv in W2. assert (WR : 0 <= wsum items <= 1 + 69 * e) by (rewrite Q; lra). split; auto.
    assert (PL : (1 + 4 * eps) ^ (length items) <= 1 + 512 * eps).
    { eapply Rle_trans; [apply pow_lin|]. - apply Rle_trans with (64 * eps); [apply Rmult_le_compat_r; lra|unfold eps; lra]. - assert (INR (length items) * eps <= 64 * eps) by (apply Rmult_le_compat_r; lra). lra. }
    pose proof (pow1 (length items)) as P1. apply Rle_trans with ((1 + 69 * e) * (1 + 512 * eps)); [apply Rmult_le_compat; lra|]. assert (512 * eps <= 13/2 * e) by lra. assert (69 * e * (512 * eps) <= 69 * (1/4000) * (512 * eps)) by (apply Rmult_le_compat_r; lra). lra.
  Qed.

  (** One particle. *)
  Lemma back_particle : forall plast dt (q q' : P1 F) fl, In (q_x q) xs -> g2p_particle plast p axes nodes dt q = Ok (q', fl) ->
    q_x q' = q_x q /\ q_v q' = q_v q /\
    (forall k, (k < dim)%nat -> ffin (vget (q_pic q') k) /\ Rabs (fval (vget (q_pic q') k)) <= U * (1 + 83 * e)) /\
    (forall k l, (k < dim)%nat -> (l < dim)%nat -> ffin (mget (q_B q') k l) /\ Rabs (fval (mget (q_B q') k l)) <= 5/2 * U * h).
  Proof.
    intros plast dt q q' fl Hx H. pose proof e_range as (E1 & E2). pose proof eps_pos as E0. pose proof U_pos as U0. pose proof h_pos' as H0. pose proof (nk_U L U p axes nodes Hn) as UR. pose proof (nk_dx L U p axes nodes Hn) as DR. fold h in DR.
    destruct (axes_cover L G HG M p xs axes Hc Ha Hp (q_x q) Hx) as (items & S1 & S2 & S3 & S4).
    destruct (axes_weights L G HG M p xs axes (q_x q) items Hc Ha Hs Hx S1) as (W1 & _). destruct (weights_total (q_x q) items Hx S1 S3) as (WR & WT).
    assert (Hw : forall it, In it items -> w_ok nodes it). { intros it Hit. destruct (W1 it Hit). split; auto. split; auto. rewrite (nk_len L U p axes nodes Hn). auto. }
    assert (L100 : (0 + length items <= 100)%nat) by (rewrite S3; pose proof items64; lia).
    assert (Z0 : forall B, 0 <= B -> ffin (fofZ 0) /\ Rabs (fval (fofZ 0)) <= B) by (intros B HB; destruct (fofZ_spec 0 ltac:(lia)) as (Fz & ->); split; auto; rewrite Rabs_R0; auto).
    destruct (gather_bound L HG nodes U) with (get := @nd_v F G) (items := items) (c := 0%nat) (S := 0) (acc := @vzero F (NumF L) G) as (pic & Ep & Kp); auto.
    { split; [apply Rle_trans with (bpow radix2 (-300)); [apply bpow_le; lia|lra]|apply Rle_trans with (bpow radix2 300); [lra|apply bpow_le; lia]]. }
    { intros nd k. apply (nk_v L U p axes nodes Hn). }
    { lra. } { lra. }
    { intros k Hk. unfold vzero. rewrite vgetF by auto. apply Z0. rewrite Rmult_0_r, Rmult_0_l. lra. }
    set (T := 226/100 * U * h).
    assert (TR : bpow radix2 (-600) <= U * h <= bpow radix2 600).
    { split; [apply Rle_trans with (bpow radix2 (-300) * bpow radix2 (-300))|apply Rle_trans with (bpow radix2 300 * bpow radix2 300)]; try (rewrite <- bpow_plus; apply bpow_le; lia); apply Rmult_le_compat; try apply bpow_ge_0; lra. }
    assert (UH : 0 < U * h) by (apply Rmult_lt_0_compat; auto).
    assert (KB : nltb (flip_ratio p) (nofZ 0) = true -> exists B, g_B (q_x q) nodes items = Ok B /\ forall k l, (k < dim)%nat -> (l < dim)%nat -> ffin (mget B k l) /\ Rabs (fval (mget B k l)) <= 5/2 * U * h).
    { intros _. destruct (gatherM_bound L HG nodes T) with (get := fun it nd => @mouter F (NumF L) G (nd_v nd) (vsub (it_x it) (q_x q))) (items := items) (c := 0%nat) (S := 0) (acc := @mzero F (NumF L) G) as (B & EB & KB); auto.
      - unfold T. replace (226/100 * U * h) with (226/100 * (U * h)) by ring. split; [apply Rle_trans with (bpow radix2 (-600)); [apply bpow_le; lia|lra]|apply Rle_trans with (bpow radix2 2 * bpow radix2 600); [change (bpow radix2 2) with 4; lra|rewrite <- bpow_plus; apply bpow_le; lia]].
      - intros it nd k l Hit Hnd Hk Hl. unfold mouter, vsub. rewrite mgetF by auto. rewrite vgetF by auto. change (@nsub F (NumF L)) with (SFsub fprec femax). change (@nmul F (NumF L)) with (SFmul fprec femax).
        destruct (items_pos L HG M p xs axes Hc Ha (q_x q) items it l Hx S1 Hit Hl) as (Fi & Di). destruct (cl_xs L M p xs Hc (q_x q) l Hx Hl) as (Fx & _). destruct (nk_v L U p axes nodes Hn nd k Hnd Hk) as (Fv & Bv). fold h in Di.
        destruct (sub_err _ _ (9/4 * h) Fi Fx Di) as (F1 & E3); [apply (inb p (cl_dx L M p xs Hc)); fold h; lra|]. set (d := SFsub fprec femax (vget (it_x it) l) (vget (q_x q) l)) in *.
        assert (Bd : Rabs (fval d) <= 2255/1000 * h) by (apply Rabs_le_inv in E3, Di; assert (eps * (9/4 * h) <= h / 1000) by (unfold eps; lra); apply Rabs_le; lra).
        destruct (mulB _ d U (2255/1000 * h) Fv F1 Bv Bd) as (F2 & C2).
        { replace (U * (2255/1000 * h)) with (2255/1000 * (U * h)) by ring. split; [apply Rle_trans with (bpow radix2 (-600)); [apply bpow_le; lia|lra]|apply Rle_trans with (bpow radix2 2 * bpow radix2 600); [change (bpow radix2 2) with 4; lra|rewrite <- bpow_plus; apply bpow_le; lia]]. }
        split; auto. eapply Rle_trans; [exact C2|]. unfold T. replace (U * (2255/1000 * h)) with (2255/1000 * (U * h)) by ring. replace (226/100 * U * h) with (226/100 * (U * h)) by ring. assert (eps <= 1/10000) by (unfold eps; lra). nra.
      - lra.
      - lra.
      - intros k l Hk Hl. unfold mzero. rewrite mgetF by auto. apply Z0. rewrite Rmult_0_r, Rmult_0_l. lra.
      - exists B. split; [exact EB|]. intros k l Hk Hl. destruct (KB k l Hk Hl) as (F1 & B1). split; auto. eapply Rle_trans; [exact B1|]. rewrite Rplus_0_l. cbn [Nat.add]. rewrite Rmult_assoc.
        unfold T. replace (226/100 * U * h * (wsum items * (1 + 4 * eps) ^ length items)) with (226/100 * (wsum items * (1 + 4 * eps) ^ length items) * (U * h)) by ring. replace (5/2 * U * h) with (5/2 * (U * h)) by ring. apply Rmult_le_compat_r; lra. }
    unfold g2p_particle in H. cbv zeta in H. rewrite S2 in H. cbn [bind] in H. unfold g_pic, gather in H. rewrite Ep in H. cbn [bind] in H.
    apply bind_Ok in H. destruct H as (vg & _ & H). apply bind_Ok in H. destruct H as (B & EB & H). apply bind_Ok in H. destruct H as (flp & _ & H).
    assert (Kpic : forall k, (k < dim)%nat -> ffin (vget pic k) /\ Rabs (fval (vget pic k)) <= U * (1 + 83 * e)).
    { intros k Hk. destruct (Kp k Hk) as (F1 & B1). split; auto. eapply Rle_trans; [exact B1|]. rewrite Rplus_0_l. cbn [Nat.add]. rewrite Rmult_assoc. apply Rmult_le_compat_l; lra. }
    assert (KB' : forall k l, (k < dim)%nat -> (l < dim)%nat -> ffin (mget B k l) /\ Rabs (fval (mget B k l)) <= 5/2 * U * h).
    { destruct (nltb (flip_ratio p) (nofZ 0)) eqn:Ef.
      - destruct (KB eq_refl) as (B' & EB' & K). rewrite EB' in EB. apply Ok_inj in EB. now subst B'.
      - apply Ok_inj in EB. subst B. intros k l Hk Hl. unfold mzero. rewrite mgetF by auto. apply Z0. replace (5/2 * U * h) with (5/2 * (U * h)) by ring. lra. }
    destruct (use_musl p).
    - apply Ok_inj in H. apply pair_equal_spec in H. destruct H as (<- & _). cbn [q_x q_v q_pic q_B]. auto.
    - unfold strain_particle in H. apply bind_Ok in H. destruct H as (o & _ & H). apply Ok_inj in H. apply pair_equal_spec in H. destruct H as (<- & _). cbn [q_x q_v q_pic q_B]. auto.
  Qed.
  (** Moving it. *)
  Lemma moved_by : forall dt (q : P1 F), In (q_x q) xs -> dt_okF U p dt ->
    (forall k, (k < dim)%nat -> ffin (vget (q_pic q) k) /\ Rabs (fval (vget (q_pic q) k)) <= U * (1 + 83 * e)) ->
    forall k, (k < dim)%nat -> ffin (vget (vadd (q_x q) (lscale dt (q_pic q))) k) /\ Rabs (fval (vget (vadd (q_x q) (lscale dt (q_pic q))) k) - fval (vget (q_x q) k)) <= fval dt * U + 84 * e * h.
  Proof.
    intros dt q Hx (Fd & D0 & D1) Hpic k Hk. fold h in D1. pose proof e_range as (E1 & E2). pose proof eps_pos as E0. pose proof U_pos as U0. pose proof h_pos' as H0. pose proof (cl_M L M p xs Hc) as HM.
    unfold vadd, lscale. rewrite !vgetF by auto. change (@nadd F (NumF L)) with (SFadd fprec femax). change (@nmul F (NumF L)) with (SFmul fprec femax).
    destruct (Hpic k Hk) as (Fp & Bp). destruct (cl_xs L M p xs Hc (q_x q) k Hx Hk) as (Fx & Bx). fold h in Bx.
    assert (Bm : Rabs (fval dt * fval (vget (q_pic q) k)) <= fval dt * U + 83 * e * h).
    { rewrite Rabs_mult, (Rabs_pos_eq (fval dt)) by auto. apply Rle_trans with (fval dt * (U * (1 + 83 * e))); [apply Rmult_le_compat_l; auto|].
      replace (fval dt * (U * (1 + 83 * e))) with (fval dt * U + 83 * e * (fval dt * U)) by ring. assert (83 * e * (fval dt * U) <= 83 * e * h) by (apply Rmult_le_compat_l; lra). lra. }
    assert (eh : e * h <= 1/4000 * h) by (apply Rmult_le_compat_r; lra).
    destruct (mul_err dt _ (2 * h) Fd Fp) as (F1 & E3); [lra|apply (inb p (cl_dx L M p xs Hc)); fold h; lra|]. set (d := SFmul fprec femax dt (vget (q_pic q) k)) in *.
    assert (Bd : Rabs (fval d) <= 2 * h) by (apply Rabs_le_inv in E3, Bm; assert (eps * (2 * h) <= h / 1000) by (unfold eps; lra); apply Rabs_le; lra).
    assert (MH : 0 <= M * h) by (apply Rmult_le_pos; lra).
    assert (Bs : Rabs (fval (vget (q_x q) k) + fval d) <= (M + 2) * h) by (eapply Rle_trans; [apply Rabs_triang|]; lra).
    destruct (fadd_spec (vget (q_x q) k) d Fx F1) as (F2 & E4). { eapply big; [exact Bs|]. apply (inb p (cl_dx L M p xs Hc)). fold h. lra. }
    split; auto. rewrite E4. pose proof (add_rel (vget (q_x q) k) d Fx F1) as Er.
    assert (Er' : Rabs (rnd (fval (vget (q_x q) k) + fval d) - (fval (vget (q_x q) k) + fval d)) <= eps * ((M + 2) * h)).
    { eapply Rle_trans; [exact Er|]. assert (eps / 2 * Rabs (fval (vget (q_x q) k) + fval d) <= eps / 2 * ((M + 2) * h)) by (apply Rmult_le_compat_l; lra). assert (0 <= eps * ((M + 2) * h)) by (apply Rmult_le_pos; [lra|apply Rmult_le_pos; lra]). lra. }
    assert (Fin : eps * ((M + 2) * h) + eps * (2 * h) <= e * h).
    { replace (eps * ((M + 2) * h) + eps * (2 * h)) with (eps * (M + 4) * h) by ring. apply Rmult_le_compat_r; [lra|]. unfold e. rewrite <- eps_bpow. apply Rmult_le_compat_l; [lra|]. cbn [pow]. nra. }
    apply Rabs_le_inv in Er', E3, Bm. apply Rabs_le. lra.
  Qed.
  Lemma move_particle : forall dt (q q' : P1 F) fl, In (q_x q) xs -> dt_okF U p dt -> use_pbc p = false -> change_pos p = false ->
    (forall k, (k < dim)%nat -> ffin (vget (q_pic q) k) /\ Rabs (fval (vget (q_pic q) k)) <= U * (1 + 83 * e)) ->
    pos_particle p dt q = Ok (q', fl) -> forall k, (k < dim)%nat -> ffin (vget (q_x q') k) /\ Rabs (fval (vget (q_x q') k) - fval (vget (q_x q) k)) <= fval dt * U + 84 * e * h.
  Proof.
    intros dt q q' fl Hx Hd Hpb Hch Hpic H k Hk.
    assert (X : q_x q' = vadd (q_x q) (lscale dt (q_pic q))).
    { unfold pos_particle in H. cbv zeta in H. apply Ok_inj in H. apply pair_equal_spec in H. destruct H as (<- & _). unfold pos_hack, pbc_wrap. rewrite Hpb, Hch. destruct (use_musl p); reflexivity. }
    rewrite X. now apply moved_by.
  Qed.
  Variable plast : Par F -> F -> TM -> TM -> Hist F -> res (PlOut F).
  Lemma back_move : forall P n dt o1 o2 P1 f1 P2 f2, p_x P = xs -> consistent P n -> dt_okF U p dt -> use_pbc p = false -> change_pos p = false ->
    Permutation o1 (seq 0 n) -> Permutation o2 (seq 0 n) -> g2p plast p axes nodes dt o1 P = Ok (P1, f1) -> positionUpdate p dt o2 P1 = Ok (P2, f2) ->
    read_back_okF M U p dt P P1 P2.
  Proof.
    intros P n dt o1 o2 P1 f1 P2 f2 Ex HC Hd Hpb Hch Ho1 Ho2 H1 H2. destruct (consistent_pack _ _ HC) as (l & <- & ->).
    destruct (loop_cells _ _ _ _ _ Ho1 H1) as (l1 & -> & L1 & K1). rewrite <- L1 in Ho2. destruct (loop_cells _ _ _ _ _ Ho2 H2) as (l2 & -> & L2 & K2).
    assert (Inx : forall i q, nth_error l i = Some q -> In (q_x q) xs) by (intros i q Hq; rewrite <- Ex; cbn; apply in_map, nth_error_In with i; auto).
    assert (J : forall i q1, nth_error l1 i = Some q1 -> exists q fl, nth_error l i = Some q /\ g2p_particle plast p axes nodes dt q = Ok (q1, fl)).
    { intros i q1 Hq1. assert (Hi : (i < length l)%nat) by (rewrite <- L1; apply nth_error_Some; congruence). destruct (nth_error l i) as [q|] eqn:E; [|apply nth_error_None in E; lia]. destruct (K1 i q E) as (r & Hr & Er & _). rewrite Hq1 in Er. injection Er as ->. exists q, (snd r). destruct r; auto. }
    fold e. unfold read_back_okF. cbv zeta. fold e h. split; [|split].
    - intros v k Hv Hk. cbn in Hv. apply in_map_iff in Hv. destruct Hv as (q1 & <- & Hq1). apply In_nth_error in Hq1. destruct Hq1 as (i & Hq1). destruct (J i q1 Hq1) as (q & fl & Hq & B). destruct (back_particle _ _ _ _ _ (Inx i q Hq) B) as (_ & _ & Kp & _). auto.
    - intros B k m HB Hk Hm. cbn in HB. apply in_map_iff in HB. destruct HB as (q1 & <- & Hq1). apply In_nth_error in Hq1. destruct Hq1 as (i & Hq1). destruct (J i q1 Hq1) as (q & fl & Hq & B). destruct (back_particle _ _ _ _ _ (Inx i q Hq) B) as (_ & _ & _ & Kb). auto.
    - intros i x y k Hx Hy Hk. cbn in Hx, Hy. rewrite nth_error_map in Hx, Hy. destruct (nth_error l i) as [q|] eqn:Eq; [|discriminate]. cbn in Hx. injection Hx as <-.
      destruct (nth_error l2 i) as [q2|] eqn:Eq2; [|discriminate]. cbn in Hy. injection Hy as <-.
      destruct (K1 i q Eq) as ((q1, g1) & B1 & Er1 & _). cbn [fst] in Er1. destruct (K2 i q1 Er1) as ((q2', g2) & B2 & Er2 & _). cbn [fst] in Er2. rewrite Eq2 in Er2. injection Er2 as <-.
      destruct (back_particle _ _ _ _ _ (Inx i q Eq) B1) as (X1 & _ & Kp & _). rewrite <- X1. apply (move_particle dt q1 q2 g2); auto. rewrite X1. eauto.
  Qed.
End Back.

(** ** C90 *)
(** On the first grid. *)
Theorem C90_first_grid : forall (L : Libm) (G : Geo F), two_or_threeF G ->
  forall plast (af : nat) (M U : R) (p : Par F) (P P1 P2 : Particles F) (n : nat) am nodes dt o1 o2 f1 f2, let NF := NumF L in
  cloud_okF L M p (p_x P) -> consistent P n -> spline p = Deg2 -> use_pbc p = false -> change_pos p = false ->
  remeshFixedInit af p 2 (p_x P) = Ok am -> (prodlen (map fst am) <= 4294967295)%Z -> nodes_okF L U p (map fst am) nodes -> dt_okF U p dt ->
  Permutation o1 (seq 0 n) -> Permutation o2 (seq 0 n) -> g2p plast p (map fst am) nodes dt o1 P = Ok (P1, f1) -> positionUpdate p dt o2 P1 = Ok (P2, f2) ->
  read_back_okF M U p dt P P1 P2.
Proof.
  intros L G HG plast af M U p P P1 P2 n am nodes dt o1 o2 f1 f2 NF Hc HC Hs Hpb Hch H Hp Hn Hd Ho1 Ho2 H1 H2. unfold NF in *. clear NF. pose proof (init_axes L G af M p (p_x P) am Hc H) as Ha.
  exact (back_move L HG M U p _ (p_x P) nodes Hc Ha Hp Hs Hn plast P n dt o1 o2 P1 f1 P2 f2 eq_refl HC Hd Hpb Hch Ho1 Ho2 H1 H2).
Qed.
(** On later grids, with the exception of [C86_later_grids_cover_partial]. *)
Theorem C90_later_grids_partial : forall (L : Libm) (G : Geo F), two_or_threeF G ->
  forall plast (af af' : nat) (M U : R) (p : Par F) (xs0 : list TV) (P P1 P2 : Particles F) (n : nat) am axes nodes dt o1 o2 f1 f2, let NF := NumF L in
  cloud_okF L M p xs0 -> cloud_okF L M p (p_x P) -> fval (dx p) <= 1048576 -> consistent P n -> spline p = Deg2 -> use_pbc p = false -> change_pos p = false ->
  remeshFixedInit af p 2 xs0 = Ok am -> remeshFixedCont af' p (p_x P) (map snd am) = Ok axes -> (prodlen axes <= 4294967295)%Z ->
  (forall x k m, In x (p_x P) -> nth_error (map snd am) k = Some m -> off_cell_edgesF M p m (vget x k)) ->
  nodes_okF L U p axes nodes -> dt_okF U p dt ->
  Permutation o1 (seq 0 n) -> Permutation o2 (seq 0 n) -> g2p plast p axes nodes dt o1 P = Ok (P1, f1) -> positionUpdate p dt o2 P1 = Ok (P2, f2) ->
  read_back_okF M U p dt P P1 P2.
Proof.
  intros L G HG plast af af' M U p xs0 P P1 P2 n am axes nodes dt o1 o2 f1 f2 NF Hc0 Hc Hd1 HC Hs Hpb Hch H0 H Hp Ho Hn Hd Ho1 Ho2 H1 H2. unfold NF in *. clear NF.
  assert (Ha : axes_okF M p (p_x P) axes) by (eapply cont_axes; [exact Hc0| | | | |]; eauto).
  exact (back_move L HG M U p _ (p_x P) nodes Hc Ha Hp Hs Hn plast P n dt o1 o2 P1 f1 P2 f2 eq_refl HC Hd Hpb Hch Ho1 Ho2 H1 H2).
Qed.
(** The particles are again a cloud with bounded velocities, as [C89_later_grids_partial] needs them: in PIC and APIC without the
    FLIP blend and without MUSL, after a step whose bounds are those of [read_back_okF]. *)
Theorem C90_next_step : forall (L : Libm) (G : Geo F), two_or_threeF G ->
  forall (M U : R) (p : Par F) (P P1 P2 : Particles F) (n : nat) dt o2 f2, let NF := NumF L in
  cloud_okF L M p (p_x P) -> M + 2 <= 1048576 -> bpow radix2 (-300) <= U <= bpow radix2 298 -> bpow radix2 (-300) <= fval (dx p) <= bpow radix2 300 -> dt_okF U p dt ->
  consistent P n -> consistent P1 n -> use_musl p = false -> nltb (flip_ratio p) (nofZ (-1)) = true ->
  Permutation o2 (seq 0 n) -> positionUpdate p dt o2 P1 = Ok (P2, f2) -> read_back_okF M U p dt P P1 P2 ->
  cloud_okF L (M + 2) p (p_x P2) /\ consistent P2 n /\ speeds_okF L (5/2 * U) p P2.
Proof.
  intros L G HG M U p P P1 P2 n dt o2 f2 NF Hc HM HU Hdx (Fd & D0 & D1) HC HC1 Hm Hfr Ho2 H2 (R1 & R2 & R3). unfold NF in *. clear NF.
  pose proof (cl_M L M p _ Hc) as M1. pose proof (h_pos p (cl_dx L M p _ Hc)) as H0. pose proof (bpow_gt_0 radix2 (-300)) as B3. pose proof eps_pos as E0.
  assert (E2 : bpow radix2 (-52) * (M + 8) ^ 2 <= 1/4000) by (assert ((M + 8) * (M + 8) <= 1048584 * 1048584) by (apply Rmult_le_compat; lra); rewrite <- eps_bpow; cbn [pow]; rewrite Rmult_1_r; unfold eps in *; lra).
  assert (E1 : 0 <= bpow radix2 (-52) * (M + 8) ^ 2) by (apply Rmult_le_pos; [apply bpow_ge_0|apply pow_le; lra]). set (e := bpow radix2 (-52) * (M + 8) ^ 2) in *.
  destruct (consistent_pack _ _ HC1) as (l & Ll & ->). rewrite <- Ll in Ho2. destruct (loop_cells _ _ _ _ _ Ho2 H2) as (l2 & -> & L2 & K2).
  assert (J : forall i q2, nth_error l2 i = Some q2 -> exists q fl, nth_error l i = Some q /\ pos_particle (NA := NumF L) p dt q = Ok (q2, fl)).
  { intros i q1 Hq1. assert (Hi : (i < length l)%nat) by (rewrite <- L2; apply nth_error_Some; congruence). destruct (nth_error l i) as [q|] eqn:E; [|apply nth_error_None in E; lia]. destruct (K2 i q E) as (r & Hr & Er & _). rewrite Hq1 in Er. injection Er as ->. exists q, (snd r). destruct r; auto. }
  assert (C2 : consistent (pack l2) n) by (rewrite <- Ll, <- L2; apply pack_consistent).
  split; [|split; auto].
  - constructor; [lra|exact (cl_dx L M p _ Hc)| |].
    + intros y k Hy Hk. apply In_nth_error in Hy. destruct Hy as (i & Hy). assert (Hi : (i < length (p_x P))%nat). { rewrite (co_x _ _ HC), <- (co_x _ _ C2). apply nth_error_Some. congruence. }
      destruct (nth_error (p_x P) i) as [x|] eqn:Ex; [|apply nth_error_None in Ex; lia]. destruct (R3 i x y k Ex Hy Hk) as (F1 & B1). split; auto. destruct (cl_xs L M p _ Hc x k (nth_error_In _ _ Ex) Hk) as (_ & B2).
      assert (84 * e * fval (dx p) <= 84 * (1/4000) * fval (dx p)) by (apply Rmult_le_compat_r; lra). apply Rabs_le_inv in B1, B2. apply Rabs_le. lra.
    + intros Hr k Hk. destruct (cl_ref L M p _ Hc Hr k Hk) as (F1 & B1). split; auto. lra.
  - assert (UU : U * (1 + 83 * e) <= 5/2 * U) by (assert (U * (83 * e) <= U * (83 * (1/4000))) by (apply Rmult_le_compat_l; lra); lra).
    constructor; [|exact Hdx| |].
    + split; [lra|]. apply Rle_trans with (bpow radix2 2 * bpow radix2 298); [change (bpow radix2 2) with 4; lra|rewrite <- bpow_plus; apply bpow_le; lia].
    + intros v k Hv Hk. cbn in Hv. apply in_map_iff in Hv. destruct Hv as (q2 & <- & Hq2). apply In_nth_error in Hq2. destruct Hq2 as (i & Hq2). destruct (J i q2 Hq2) as (q & fl & Hq & B).
      assert (X : q_v q2 = q_pic q) by (unfold pos_particle in B; cbv zeta in B; rewrite Hm in B; apply Ok_inj in B; apply pair_equal_spec in B; destruct B as (<- & _); cbn [set_v q_v]; unfold new_velocity; cbv zeta; rewrite Hfr; reflexivity).
      rewrite X. destruct (R1 (q_pic q) k) as (F1 & B1); auto; [cbn; apply in_map; eapply nth_error_In; eauto|]. split; auto. lra.
    + intros _ B k m HB Hk Hm'. cbn in HB. apply in_map_iff in HB. destruct HB as (q2 & <- & Hq2). apply In_nth_error in Hq2. destruct Hq2 as (i & Hq2). destruct (J i q2 Hq2) as (q & fl & Hq & B').
      assert (X : q_B q2 = q_B q) by (unfold pos_particle in B'; cbv zeta in B'; rewrite Hm in B'; apply Ok_inj in B'; apply pair_equal_spec in B'; destruct B' as (<- & _); reflexivity).
      rewrite X. apply R2; auto. cbn. apply in_map. eapply nth_error_In; eauto.
Qed.

(** ** A case that meets the hypotheses: the two particles of C89 in pure APIC, on the grid they have just been transferred to, dt = 1/2000. *)
Section Ex.
  Local Instance nfb : Num F := NumF ExSimF.libm0.
  Local Existing Instance Geo2.
  Definition backF_p : @Par F (Geo2 F) :=
    {| spline := Deg2; end_frame := 3; use_pbc := false; change_pos := false; gravity_special := false;
       save_sim := true; save_grid := true; use_mibf := false; use_musl := false;
       grid_ref := vtab (fun _ => nofZ 20000000000); gravity0 := mkV2 (nofZ 0) (nofQ (-981) 100);
       min_dt := nofQ 1 1000000000000; fps := nofZ 10; cfl := nofQ 1 2; cfl_elastic := nofQ 1 2;
       flip_ratio := nofZ (-2); rho := nofZ 1000; gravity_time := nofZ 0; Lx := nofZ 1; Ly := nofZ 1; Lz := nofZ 1;
       particle_mass := nofZ 1; particle_volume := nofZ 1; dx := nofQ 1 10;
       elastic_model := Hencky; plastic_model := NoPlasticity; hardening_law := ExpoImpl;
       use_pradhana := true; young := nofZ 10000; nu := nofQ 3 10; stress_tolerance := nofQ 1 100000; xi := nofZ 0;
       q_max := nofZ 100; q_min := nofZ 100; p_min := nofZ (-100000000000000000000);
       Mfric := nofZ 1; q_cohesion := nofZ 0; visc_exponent := nofZ 1; visc_time := nofZ 0; use_dl := false;
       beta := nofZ 0; p0 := nofZ 1000; rho_s := nofZ 2500; grain_diameter := nofQ 1 1000; I_ref := nofQ 279 1000;
       mu_1 := nofQ 38 100; mu_2 := nofQ 64 100; q_prefac := ndiv (nofZ 1) (nsqrt (nofZ 2)); objects := [] |}.
  Definition backF_dt : F := nofQ 1 2000.
  Definition still (p : Par F) (dt : F) (Fe tau : TM) (h : Hist F) : res (PlOut F) := Ok (mkPlOut Fe tau h 0 false).
  Lemma backF_runs : exists am nodes P1 P2 f1 f2, remeshFixedInit 20 backF_p 2 gridF_xs = Ok am /\ (prodlen (map fst am) <= 4294967295)%Z /\
    p2g backF_p (map fst am) velF_P massF_sched (resizeGrid (map fst am)) = Ok nodes /\
    g2p still backF_p (map fst am) nodes backF_dt [1; 0]%nat velF_P = Ok (P1, f1) /\ positionUpdate backF_p backF_dt [0; 1]%nat P1 = Ok (P2, f2) /\
    SFeqb (vget (nth 0 (p_x P2) vzero) 0) (vget (nth 0 gridF_xs vzero) 0) = false.
  Proof.
    assert (K : exists r, (am <- remeshFixedInit 20 backF_p 2 gridF_xs ;; nodes <- p2g backF_p (map fst am) velF_P massF_sched (resizeGrid (map fst am)) ;; r1 <- g2p still backF_p (map fst am) nodes backF_dt [1; 0]%nat velF_P ;; r2 <- positionUpdate backF_p backF_dt [0; 1]%nat (fst r1) ;; Ok (am, nodes, fst r1, fst r2)) = Ok r /\ ((prodlen (map fst (fst (fst (fst r)))) <=? 4294967295)%Z && negb (SFeqb (vget (nth 0 (p_x (snd r)) vzero) 0) (vget (nth 0 gridF_xs vzero) 0)))%bool = true) by (apply ok_intro; vm_compute; reflexivity).
    destruct K as ((((am & nodes) & P1) & P2) & E & K). apply andb_true_iff in K. destruct K as (K & Kx). cbn [fst snd] in K, Kx. apply Z.leb_le in K.
    apply bind_Ok in E. destruct E as (am' & Ea & E). apply bind_Ok in E. destruct E as (nodes' & Eg & E). apply bind_Ok in E. destruct E as ((P1' & f1) & E1 & E). apply bind_Ok in E. destruct E as ((P2' & f2) & E2 & E).
    cbn [fst] in E2, E. apply Ok_inj in E. apply pair_equal_spec in E. destruct E as (E & <-). apply pair_equal_spec in E. destruct E as (E & <-). apply pair_equal_spec in E. destruct E as (<- & <-).
    apply negb_true_iff in Kx. exists am', nodes', P1', P2', f1, f2. auto 10.
  Qed.
  Lemma backF_cloud : cloud_okF ExSimF.libm0 8 backF_p (p_x velF_P) /\ speeds_okF ExSimF.libm0 4 backF_p velF_P.
  Proof.
    destruct velF_ok as (Hc & HC & Hs & Hv & Hf). destruct Hc as [c1 c2 c3 c4]. destruct Hv as [v1 v2 v3 v4].
    split; [constructor; [exact c1|exact c2|exact c3|exact c4]|constructor; [exact v1|exact v2|exact v3|exact (fun _ => v4 Hf)]].
  Qed.
  Lemma backF_nodes : forall am' nodes', remeshFixedInit 20 backF_p 2 gridF_xs = Ok am' -> (prodlen (map fst am') <= 4294967295)%Z ->
    p2g backF_p (map fst am') velF_P massF_sched (resizeGrid (map fst am')) = Ok nodes' -> nodes_okF ExSimF.libm0 140 backF_p (map fst am') nodes'.
  Proof.
    intros am' nodes' Ea K Eg. destruct backF_cloud as (Hc & Hv). destruct velF_ok as (_ & HC & Hs & _). pose proof (sp_dx _ _ _ _ Hv) as v2.
    assert (C : INR (2 * Nat.pow 4 (@dim F (Geo2 F)) + length massF_sched) = 34) by (cbn; lra).
    destruct (C89_first_grid ExSimF.libm0 (Geo2 F) (or_introl eq_refl) 20 8 4 backF_p velF_P 2 am' Hc HC Hs Hv Ea K massF_sched) as (nodes & Eg' & Kn).
      - unfold thread_schedule, massF_sched. cbn. apply perm_swap.
      - cbv zeta. rewrite C. apply Rle_trans with (bpow radix2 10); [cbn; lra|apply bpow_le; lia].
      - destruct (C88_first_grid ExSimF.libm0 (Geo2 F) (or_introl eq_refl) 20 8 backF_p velF_P 2 am' Hc HC Hs) as (Hm & _); auto; [split; [exact (proj1 (fofZ_spec 1 ltac:(lia)))|]; change (particle_mass backF_p) with (fofZ 1); rewrite (proj2 (fofZ_spec 1 ltac:(lia))); split; [apply Rle_trans with (bpow radix2 0); [apply bpow_le; lia|cbn; lra]|apply Rle_trans with (bpow radix2 0); [cbn; lra|apply bpow_le; lia]]|].
        destruct (Hm massF_sched) as (nodes2 & Eg2 & Ln & _); [unfold thread_schedule, massF_sched; cbn; apply perm_swap|cbv zeta; rewrite C; apply Rle_trans with (bpow radix2 10); [cbn; lra|apply bpow_le; lia]|].
        assert (nodes = nodes') as -> by exact (Ok_inj _ _ _ (eq_trans (eq_sym Eg') Eg)). assert (nodes2 = nodes') as -> by exact (Ok_inj _ _ _ (eq_trans (eq_sym Eg2) Eg)).
        constructor; [exact Ln| |exact v2|].
        + split; [apply Rle_trans with (bpow radix2 0); [apply bpow_le; lia|cbn; lra]|apply Rle_trans with (bpow radix2 8); [cbn; lra|apply bpow_le; lia]].
        + intros nd k Hi Hk. destruct (Kn nd k Hi Hk) as (F1 & B1). split; auto. change (nltb (flip_ratio backF_p) (nofZ 0)) with true in B1. cbn iota in B1. lra.
  Qed.
  Lemma backF_dt_ok : dt_okF 140 backF_p backF_dt.
  Proof.
    assert (Ed : backF_dt = S754_finite false 4611686018427388 (-63)) by (vm_compute; reflexivity).
    assert (Ex : dx backF_p = S754_finite false 7205759403792794 (-56)) by (vm_compute; reflexivity).
    split; [rewrite Ed; split; reflexivity|]. rewrite Ed, Ex, !fval_fin. assert (B63 : bpow radix2 (-63) = / 9223372036854775808) by (cbn; lra). assert (B56 : bpow radix2 (-56) = / 72057594037927936) by (cbn; lra). rewrite B63, B56. cbn [sfZ]. lra.
  Qed.
  Example C90_ex : exists am nodes P1 P2 f1 f2, remeshFixedInit 20 backF_p 2 gridF_xs = Ok am /\ nodes_okF ExSimF.libm0 140 backF_p (map fst am) nodes /\
    g2p still backF_p (map fst am) nodes backF_dt [1; 0]%nat velF_P = Ok (P1, f1) /\ positionUpdate backF_p backF_dt [0; 1]%nat P1 = Ok (P2, f2) /\
    read_back_okF 8 140 backF_p backF_dt velF_P P1 P2 /\ cloud_okF ExSimF.libm0 10 backF_p (p_x P2) /\ speeds_okF ExSimF.libm0 350 backF_p P2 /\ p_x P2 <> p_x velF_P.
  Proof.
    destruct backF_runs as (am' & nodes' & P1' & P2' & f1 & f2 & Ea & K & Eg & E1 & E2 & Kx). destruct backF_cloud as (Hc & Hv). destruct velF_ok as (_ & HC & Hs & _). pose proof (sp_dx _ _ _ _ Hv) as v2.
    pose proof (backF_nodes am' nodes' Ea K Eg) as Hn. pose proof backF_dt_ok as Hd.
    assert (Hr : read_back_okF 8 140 backF_p backF_dt velF_P P1' P2').
    { refine (C90_first_grid ExSimF.libm0 (Geo2 F) (or_introl eq_refl) still 20 8 140 backF_p velF_P P1' P2' 2 am' nodes' backF_dt [1; 0]%nat [0; 1]%nat f1 f2 Hc HC Hs eq_refl eq_refl Ea K Hn Hd _ _ E1 E2); [cbn; apply perm_swap|apply Permutation_refl]. }
    assert (HC1 : consistent P1' 2). { destruct (consistent_pack _ _ HC) as (l & Ll & El). rewrite El in E1. destruct (fun H => loop_cells _ _ _ _ _ H E1) as (l1 & -> & L1 & _); [rewrite Ll; cbn; apply perm_swap|]. rewrite <- Ll, <- L1. apply pack_consistent. }
    assert (A1 : 8 + 2 <= 1048576) by lra. assert (A2 : bpow radix2 (-300) <= 140 <= bpow radix2 298) by (split; [apply Rle_trans with (bpow radix2 0); [apply bpow_le; lia|cbn; lra]|apply Rle_trans with (bpow radix2 8); [cbn; lra|apply bpow_le; lia]]).
    destruct (C90_next_step ExSimF.libm0 (Geo2 F) (or_introl eq_refl) 8 140 backF_p velF_P P1' P2' 2 backF_dt [0; 1]%nat f2 Hc A1 A2 v2 Hd HC HC1 eq_refl eq_refl (Permutation_refl _) E2 Hr) as (N1 & _ & N3).
    exists am', nodes', P1', P2', f1, f2. split; [exact Ea|]. split; [exact Hn|]. split; [exact E1|]. split; [exact E2|]. split; [exact Hr|].
    split; [replace 10 with (8 + 2) by lra; exact N1|]. split; [replace 350 with (5/2 * 140) by lra; exact N3|]. intros Heq. rewrite Heq in Kx. revert Kx. vm_compute. discriminate.
  Qed.
End Ex.
Print Assumptions C90_first_grid.
Print Assumptions C90_later_grids_partial.
Print Assumptions C90_next_step.
