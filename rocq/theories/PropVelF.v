(** * PropVelF: C89, velocities on the grid in double precision, for every thread schedule. *)
From Coq Require Import ZArith Reals Lra Lia List Bool Floats.SpecFloat Permutation.
From Flocq Require Import Core.
From Verif Require Import Num NumF NumR Tools Lin Types Remesh Transfer Sampling Spec SpecF SpecGridF SpecMassF ResProofs PlasticModels LinProofs GridProofs P2GProofs FloatBase FloatGrid FloatKernel FloatCont FloatPbc FloatSum FloatVel ExSimF PropGridF PropGridLater PropPbcF PropMassF.
Import ListNotations.
Local Open Scope R_scope.

Section Pos.
  Variable L : Libm.
  Hint Extern 0 (Num F) => exact (NumF L) : typeclass_instances.
  Context {G : Geo F}.
  Hypothesis HG : two_or_threeF G.
  Variable M : R.
  Variable p : Par F.
  Variable xs : list TV.
  Variable axes : list (Axis F).
  Hypothesis Hc : cloud_okF L M p xs.
  Hypothesis Ha : axes_okF M p xs axes.

  (** A visited node is at most two and a quarter cells away on each axis. *)
  Lemma axis_pos : forall k a x b l it, nth_error axes k = Some a -> In x xs -> base_p2g p a (vget x k) = Ok b -> ax_items p a (vget x k) b = Ok l -> In it l ->
    ffin (ai_x it) /\ Rabs (fval (ai_x it) - fval (vget x k)) <= 9/4 * fval (dx p).
  Proof.
    intros k a x b l it Hn Hx Eb El Hit. destruct Ha as (_ & A). destruct (A k a Hn) as (Hk & I). destruct (axis_stencil L p M xs Hc k a x Hk I Hx) as (b' & P0 & _ & Z0 & N0 & Q0).
    assert (b' = b) as -> by (rewrite P0 in Eb; now apply Ok_inj in Eb). pose proof (cl_M L M p xs Hc) as HM. pose proof (h_pos p (cl_dx L M p xs Hc)) as P. pose proof eps_pos as E0. set (h := fval (dx p)) in *.
    assert (K : exists d, (0 <= d <= 3)%Z /\ rd (ax_co a) (b + d) = Ok (ai_x it)).
    { unfold ax_items in El. cbn [mapM] in El.
      apply bind_Ok in El. destruct El as (i0 & R0 & El). apply bind_Ok in El. destruct El as (q0 & El & Q). apply Ok_inj in Q. subst l.
      apply bind_Ok in El. destruct El as (i1 & R1 & El). apply bind_Ok in El. destruct El as (q1 & El & Q). apply Ok_inj in Q. subst q0.
      apply bind_Ok in El. destruct El as (i2 & R2 & El). apply bind_Ok in El. destruct El as (q2 & El & Q). apply Ok_inj in Q. subst q1.
      apply bind_Ok in El. destruct El as (i3 & R3 & El). apply bind_Ok in El. destruct El as (q3 & El & Q). apply Ok_inj in Q. subst q2. apply Ok_inj in El. subst q3.
      assert (T : forall d i, ax_item (NA := NumF L) p a (vget x k) (b + d) = Ok i -> rd (ax_co a) (b + d) = Ok (ai_x i)).
      { intros d i H. unfold ax_item in H. apply bind_Ok in H. destruct H as (xi & Er & H). apply Ok_inj in H. subst i. exact Er. }
      destruct Hit as [<-|[<-|[<-|[<-|[]]]]]; [exists 0%Z|exists 1%Z|exists 2%Z|exists 3%Z]; (split; [lia|apply T; assumption]). }
    destruct K as (d & Hd & Er). apply rd_Ok in Er. destruct Er as (_ & Er). destruct (ia_co _ _ _ _ _ I _ _ Er) as (Fi & Bi & Di). split; auto. fold h in Di.
    rewrite INR_IZR_INZ, Z2Nat.id, plus_IZR in Di by lia. pose proof (ia_n _ _ _ _ _ I) as In. rewrite INR_IZR_INZ in In.
    assert (Hn' : 0 <= IZR b + IZR d <= 4 * M + 25) by (rewrite <- plus_IZR; split; [apply IZR_le; lia|eapply Rle_trans; [|exact In]; apply IZR_le; lia]). set (j := IZR b + IZR d) in *.
    assert (D0 : 0 <= IZR d <= 3) by (split; apply IZR_le; lia).
    assert (e : j * (eps * ((M + 6) * h)) <= h / 100).
    { apply Rle_trans with ((4 * M + 25) * (eps * ((M + 6) * h))); [apply Rmult_le_compat_r; [|lra]; repeat apply Rmult_le_pos; lra|].
      replace ((4 * M + 25) * (eps * ((M + 6) * h))) with ((4 * M + 25) * (M + 6) * eps * h) by ring. assert (T : (4 * M + 25) * (M + 6) * eps <= / 100) by (unfold eps; nra). apply Rle_trans with (/ 100 * h); [apply Rmult_le_compat_r; lra|lra]. }
    set (y := (fval (vget x k) - fval (ax_c a)) / h) in *. assert (Ey : fval (vget x k) = fval (ax_c a) + y * h) by (unfold y; field; lra). rewrite Ey.
    apply Rabs_le_inv in Di. assert (Dy : -(17/8) <= j - y <= 17/8) by (unfold j; lra). assert (Dh : -(17/8) * h <= (j - y) * h <= 17/8 * h) by (split; apply Rmult_le_compat_r; lra). apply Rabs_le. lra.
  Qed.
  Lemma items_pos : forall x items it k, In x xs -> stencil (base_p2g (NA := NumF L)) p axes x = Ok items -> In it items -> (k < dim)%nat ->
    ffin (vget (it_x it) k) /\ Rabs (fval (vget (it_x it) k) - fval (vget x k)) <= 9/4 * fval (dx p).
  Proof.
    intros x items it k Hx Hst Hit Hk. pose proof axis_pos as AP. destruct Ha as (Ln & _). destruct HG as [E | E].
    - subst G. destruct axes as [|ax [|ay [|az r]]] eqn:Ea; try discriminate. cbn [stencil] in Hst.
      apply bind_Ok in Hst. destruct Hst as (b0 & P0 & Hst). apply bind_Ok in Hst. destruct Hst as (b1 & P1 & Hst).
      apply bind_Ok in Hst. destruct Hst as (l0 & E0' & Hst). apply bind_Ok in Hst. destruct Hst as (l1 & E1 & Hst). apply Ok_inj in Hst. subst items.
      apply in_flat_map in Hit. destruct Hit as (i & Hi0 & Hi). apply in_map_iff in Hi. destruct Hi as (j & <- & Hi1).
      destruct k as [|[|k]]; [exact (AP 0%nat ax x b0 l0 i eq_refl Hx P0 E0' Hi0)|exact (AP 1%nat ay x b1 l1 j eq_refl Hx P1 E1 Hi1)|cbn in Hk; lia].
    - subst G. destruct axes as [|ax [|ay [|az [|aw r]]]] eqn:Ea; try discriminate. cbn [stencil] in Hst.
      apply bind_Ok in Hst. destruct Hst as (b0 & P0 & Hst). apply bind_Ok in Hst. destruct Hst as (b1 & P1 & Hst). apply bind_Ok in Hst. destruct Hst as (b2 & P2 & Hst).
      apply bind_Ok in Hst. destruct Hst as (l0 & E0' & Hst). apply bind_Ok in Hst. destruct Hst as (l1 & E1 & Hst). apply bind_Ok in Hst. destruct Hst as (l2 & E2 & Hst). apply Ok_inj in Hst. subst items.
      apply in_flat_map in Hit. destruct Hit as (i & Hi0 & Hi). apply in_flat_map in Hi. destruct Hi as (j & Hi1 & Hi). apply in_map_iff in Hi. destruct Hi as (q & <- & Hi2).
      destruct k as [|[|[|k]]]; [exact (AP 0%nat ax x b0 l0 i eq_refl Hx P0 E0' Hi0)|exact (AP 1%nat ay x b1 l1 j eq_refl Hx P1 E1 Hi1)|exact (AP 2%nat az x b2 l2 q eq_refl Hx P2 E2 Hi2)|cbn in Hk; lia].
  Qed.

  (** The affine part. *)
  Variable V : R.
  Hypothesis HV : bpow radix2 (-300) <= V <= bpow radix2 300.
  Hypothesis Hh : bpow radix2 (-300) <= fval (dx p) <= bpow radix2 300.
  Hypothesis Hs : spline p = Deg2.
  Let h := fval (dx p).
  Lemma hp : 0 < h. Proof. apply (h_pos p (cl_dx L M p xs Hc)). Qed.
  Lemma hh_range : bpow radix2 (-600) <= h * h <= bpow radix2 600.
  Proof.
    pose proof hp. fold h in Hh. split; [apply Rle_trans with (bpow radix2 (-300) * bpow radix2 (-300)); [rewrite <- bpow_plus; apply bpow_le; lia|]|apply Rle_trans with (bpow radix2 300 * bpow radix2 300); [|rewrite <- bpow_plus; apply bpow_le; lia]]; apply Rmult_le_compat; try apply bpow_ge_0; lra.
  Qed.
  Lemma Dinv_F : ffin (apicDinverse p) /\ Rabs (fval (apicDinverse p)) <= 41/10 / (h * h).
  Proof.
    pose proof hp as P. destruct hh_range as (R1 & R2). pose proof eps_pos as E0. destruct (cl_dx L M p xs Hc) as (Fd & _). unfold apicDinverse. rewrite Hs.
    change (@ndiv F (NumF L)) with (SFdiv fprec femax). change (@nmul F (NumF L)) with (SFmul fprec femax). change (@nofZ F (NumF L) 4) with (fofZ 4). destruct (fofZ_spec 4 ltac:(lia)) as (F4 & V4).
    assert (H2 : 0 < h * h) by (apply Rmult_lt_0_compat; auto).
    destruct (mul_err (dx p) (dx p) (h * h) Fd Fd) as (F1 & E1).
    { fold h. rewrite Rabs_pos_eq; lra. }
    { split; [apply Rle_trans with (bpow radix2 (-600)); [apply bpow_le; lia|auto]|apply Rle_trans with (bpow radix2 600); [auto|apply bpow_le; lia]]. }
    fold h in E1. set (m := SFmul fprec femax (dx p) (dx p)) in *. apply Rabs_le_inv in E1. assert (e1 : eps * (h * h) <= h * h / 1000) by (unfold eps; lra).
    assert (Hm : 999/1000 * (h * h) <= fval m) by lra. assert (Pm : 0 < fval m) by lra.
    assert (Bq : Rabs (fval (fofZ 4) / fval m) <= 405/100 / (h * h)).
    { rewrite V4. rewrite Rabs_pos_eq by (apply Rlt_le; apply Rdiv_lt_0_compat; lra). apply Rmult_le_reg_r with (fval m * (h * h)); [apply Rmult_lt_0_compat; auto|].
      replace (4 / fval m * (fval m * (h * h))) with (4 * (h * h)) by (field; lra). replace (405 / 100 / (h * h) * (fval m * (h * h))) with (405/100 * fval m) by (field; lra). lra. }
    assert (Iv : bpow radix2 (-600) <= / (h * h) <= bpow radix2 600).
    { split; [change (-600)%Z with (- (600))%Z|change 600%Z with (- (-600))%Z]; rewrite bpow_opp; apply Rinv_le_contravar; auto; apply bpow_gt_0. }
    assert (Bb : bpow radix2 (-1000) <= 405 / 100 / (h * h) <= bpow radix2 1000).
    { pose proof (bpow_gt_0 radix2 (-600)). split; [apply Rle_trans with (bpow radix2 (-600)); [apply bpow_le; lia|unfold Rdiv at 1; lra]|]. apply Rle_trans with (8 * bpow radix2 600); [unfold Rdiv at 1; pose proof (bpow_gt_0 radix2 600); lra|]. change 8 with (bpow radix2 3). rewrite <- bpow_plus. apply bpow_le. lia. }
    destruct (fdiv_spec (fofZ 4) m F4 F1) as (F2 & E2); [lra|eapply big; [exact Bq|lra]|]. split; auto. rewrite E2. pose proof (rnd_rel _ _ Bq (proj1 Bb)) as Er. apply Rabs_le_inv in Er, Bq.
    assert (Ip : 0 < / (h * h)) by (apply Rinv_0_lt_compat; auto). assert (eps * (405 / 100 / (h * h)) <= 1/1000 * / (h * h)) by (unfold Rdiv at 1; unfold eps; nra). unfold Rdiv in *. apply Rabs_le. lra.
  Qed.
  Lemma apic_bound : forall x items it (B : TM) k, In x xs -> stencil (base_p2g (NA := NumF L)) p axes x = Ok items -> In it items -> (k < dim)%nat ->
    (forall k l, (k < dim)%nat -> (l < dim)%nat -> ffin (mget B k l) /\ Rabs (fval (mget B k l)) <= V * h) ->
    let a := vscale (mvec B (vsub (it_x it) x)) (apicDinverse p) in ffin (vget a k) /\ Rabs (fval (vget a k)) <= 33 * V.
  Proof.
    intros x items it B k Hx Hst Hit Hk HB. cbv zeta. pose proof hp as P. destruct hh_range as (R1 & R2). pose proof eps_pos as E0.
    assert (V0 : 0 < V) by (apply Rlt_le_trans with (bpow radix2 (-300)); [apply bpow_gt_0|lra]). assert (H2 : 0 < h * h) by (apply Rmult_lt_0_compat; auto).
    set (q := V * (h * h)). assert (Q0 : 0 < q) by (apply Rmult_lt_0_compat; auto).
    assert (Qr : bpow radix2 (-900) <= q <= bpow radix2 900).
    { unfold q. split; [apply Rle_trans with (bpow radix2 (-300) * bpow radix2 (-600))|apply Rle_trans with (bpow radix2 300 * bpow radix2 600)]; try (rewrite <- bpow_plus; apply bpow_le; lia); apply Rmult_le_compat; try apply bpow_ge_0; lra. }
    assert (Q1 : forall c, 1 <= c <= 64 -> bpow radix2 (-1000) <= c * q <= bpow radix2 1000).
    { intros c Hcc. pose proof (bpow_gt_0 radix2 900). split; [apply Rle_trans with (bpow radix2 (-900)); [apply bpow_le; lia|nra]|]. apply Rle_trans with (bpow radix2 6 * bpow radix2 900); [change (bpow radix2 6) with 64; nra|]. rewrite <- bpow_plus. apply bpow_le. lia. }
    assert (T : forall l, (l < dim)%nat -> let t := SFmul fprec femax (mget B k l) (vget (vsub (it_x it) x) l) in ffin t /\ Rabs (fval t) <= 26/10 * q).
    { intros l Hl. cbv zeta. destruct (items_pos x items it l Hx Hst Hit Hl) as (Fi & Di). destruct (cl_xs L M p xs Hc x l Hx Hl) as (Fx & _). destruct (HB k l Hk Hl) as (FB & BB). fold h in Di.
      unfold vsub. rewrite vgetF by auto. change (@nsub F (NumF L)) with (SFsub fprec femax).
      destruct (sub_err _ _ (9/4 * h) Fi Fx Di) as (F1 & E1); [apply (inb p (cl_dx L M p xs Hc)); lra|]. set (d := SFsub fprec femax (vget (it_x it) l) (vget x l)) in *.
      assert (Bd : Rabs (fval d) <= 5/2 * h) by (apply Rabs_le_inv in E1, Di; assert (eps * (9/4 * h) <= h / 100) by (unfold eps; lra); apply Rabs_le; lra).
      destruct (mulB _ d (V * h) (5/2 * h) FB F1 BB Bd) as (F2 & C2). { replace (V * h * (5 / 2 * h)) with (5/2 * q) by (unfold q; ring). apply Q1. lra. }
      split; auto. eapply Rle_trans; [exact C2|]. replace (V * h * (5 / 2 * h)) with (5/2 * q) by (unfold q; ring). assert (eps <= 1/100) by (unfold eps; lra). nra. }
    assert (Sm : ffin (vget (mvec B (vsub (it_x it) x)) k) /\ Rabs (fval (vget (mvec B (vsub (it_x it) x)) k)) <= 79/10 * q).
    { unfold mvec. rewrite vgetF by auto. unfold sumd. assert (eps <= 1/10000) by (unfold eps; lra). pose proof (Q1 16 ltac:(lra)) as Q16. destruct (dimF G HG) as [D|D]; rewrite D in T |- *; cbn [pred sumto]; change (@nadd F (NumF L)) with (SFadd fprec femax); change (@nmul F (NumF L)) with (SFmul fprec femax).
      - destruct (T 0%nat ltac:(lia)) as (F0 & B0). destruct (T 1%nat ltac:(lia)) as (F1 & B1). destruct (addB _ _ _ _ F0 F1 B0 B1) as (F2 & B2); [lra|]. split; auto. eapply Rle_trans; [exact B2|]. nra.
      - destruct (T 0%nat ltac:(lia)) as (F0 & B0). destruct (T 1%nat ltac:(lia)) as (F1 & B1). destruct (T 2%nat ltac:(lia)) as (F2 & B2). destruct (addB _ _ _ _ F0 F1 B0 B1) as (F3 & B3); [lra|].
        assert (B3' : Rabs (fval (SFadd fprec femax (SFmul fprec femax (mget B k 0) (vget (vsub (it_x it) x) 0)) (SFmul fprec femax (mget B k 1) (vget (vsub (it_x it) x) 1)))) <= 521/100 * q) by (eapply Rle_trans; [exact B3|]; nra).
        destruct (addB _ _ _ _ F3 F2 B3' B2) as (F4 & B4); [lra|]. split; auto. eapply Rle_trans; [exact B4|]. nra. }
    destruct Sm as (Fs & Bs). destruct Dinv_F as (Fd & Bd). unfold vscale. rewrite vgetF by auto. change (@nmul F (NumF L)) with (SFmul fprec femax).
    assert (Eq : 79/10 * q * (41/10 / (h * h)) = 3239/100 * V) by (unfold q; field; lra).
    destruct (mulB _ _ _ _ Fs Fd Bs Bd) as (F5 & B5).
    { rewrite Eq. pose proof (bpow_gt_0 radix2 300). split; [apply Rle_trans with (bpow radix2 (-300)); [apply bpow_le; lia|lra]|]. apply Rle_trans with (bpow radix2 6 * bpow radix2 300); [change (bpow radix2 6) with 64; nra|]. rewrite <- bpow_plus. apply bpow_le. lia. }
    split; auto. eapply Rle_trans; [exact B5|]. rewrite Eq. assert (eps <= 1/10000) by (unfold eps; lra). nra.
  Qed.
End Pos.

Section Speeds.
  Variable L : Libm.
  Hint Extern 0 (Num F) => exact (NumF L) : typeclass_instances.
  Context {G : Geo F}.
  Hypothesis HG : two_or_threeF G.
  Variable M : R.
  Variable p : Par F.
  Variable axes : list (Axis F).
  Variable P : Particles F.
  Variable n : nat.
  Hypothesis Hc : cloud_okF L M p (p_x P).
  Hypothesis Ha : axes_okF M p (p_x P) axes.
  Hypothesis Hp : (prodlen axes <= 4294967295)%Z.
  Hypothesis HC : consistent P n.
  Hypothesis Hs : spline p = Deg2.
  Variable V : R.
  Hypothesis Hv : speeds_okF L V p P.

  Lemma grid_speeds : nodal_speeds_okF L V p axes P n.
  Proof.
    intros sched Hsch c Hcc. pose proof eps_pos as E0. assert (He : INR c * eps <= 1/512).
    { apply Rle_trans with (bpow radix2 43 * eps); [apply Rmult_le_compat_r; [unfold eps; lra|auto]|]. rewrite eps_bpow, <- bpow_plus. cbn. lra. }
    set (N := length (resizeGrid (NA := NumF L) axes)). set (K := Nat.pow 4 dim).
    pose proof (all_items L HG M p axes P n Hc Ha Hp HC Hs) as AI. fold N K in AI. pose proof (sp_V _ _ _ _ Hv) as HV. pose proof (sp_dx _ _ _ _ Hv) as Hh.
    assert (V0 : 0 < V) by (apply Rlt_le_trans with (bpow radix2 (-300)); [apply bpow_gt_0|lra]).
    assert (HV' : bpow radix2 (-800) <= V <= bpow radix2 400) by (split; [apply Rle_trans with (bpow radix2 (-300)); [apply bpow_le; lia|lra]|apply Rle_trans with (bpow radix2 300); [lra|apply bpow_le; lia]]).
    assert (HA' : bpow radix2 (-800) <= 33 * V <= bpow radix2 400).
    { split; [lra|]. apply Rle_trans with (bpow radix2 6 * bpow radix2 300); [change (bpow radix2 6) with 64; lra|]. rewrite <- bpow_plus. apply bpow_le. lia. }
    destruct (accumulate_Q L p N (velQ L p V (33 * V)) (velQ_mono L p V (33 * V) HV' HA') (velQ_zero L HG p V (33 * V)) (velQ_merge L HG p V (33 * V) HV' HA') axes P n HC K AI) with (sched := sched) as (g & Eg & Lg & Ig).
    - intros i xp vp B tau mui it Hi Ex Ev Et EB Hit. destruct (AI i Hi) as (_ & Io & x & Ex' & Es). rewrite Ex in Ex'. apply Ok_inj in Ex'. subst x.
      assert (Ix : In xp (p_x P)) by (apply rd_Ok in Ex; destruct Ex as (_ & Ex); now apply nth_error_In in Ex).
      assert (Iv : In vp (p_v P)) by (apply rd_Ok in Ev; destruct Ev as (_ & Ev); now apply nth_error_In in Ev).
      apply (velQ_keeps L HG p N V (33 * V) HV' HA'); auto.
      + intros k Hk. now apply (sp_v _ _ _ _ Hv).
      + intros Ef k Hk. apply (apic_bound L HG M p (p_x P) axes Hc Ha V HV Hh Hs xp (items_of L p axes P i) it B k Ix Es Hit Hk).
        intros k' l Hk' Hl. specialize (EB Ef). apply rd_Ok in EB. destruct EB as (_ & EB). apply nth_error_In in EB. now apply (sp_B _ _ _ _ Hv Ef).
    - exact Hsch.
    - fold K in c. unfold c in He. lra.
    - assert (Er : resizeGrid (NA := NumF L) axes = repeat zero_node N) by (unfold N, resizeGrid; now rewrite repeat_length).
      exists (map (p2g_finish_node p) g). unfold p2g. rewrite Er, Eg. cbn [bind]. split; [reflexivity|].
      intros nd k Hi Hk. apply in_map_iff in Hi. destruct Hi as (nd0 & <- & Hi). apply In_nth_error in Hi. destruct Hi as (j & Ej). specialize (Ig j nd0 Ej). cbv beta in Ig. rewrite (weight_items L HG M p axes P n Hc Ha Hp HC Hs) in Ig. fold K in c. change (n * K + length sched)%nat with c in Ig.
      destruct (finish_vel L HG p V (33 * V) HV' HA' c nd0 _ Ig ltac:(lra)) with (k := k) as (F1 & B1); auto.
      { eapply Rle_trans; [apply (weight_range L HG M p axes P n Hc Ha Hp HC Hs)|]. apply Rle_trans with (INR c); [apply le_INR; unfold c, K; lia|]. eapply Rle_trans; [exact Hcc|]. apply bpow_le. lia. }
      split; auto. eapply Rle_trans; [exact B1|]. unfold UB_v. rewrite <- eps_bpow. destruct (nltb (flip_ratio p) (nofZ 0)).
      + assert (e34 : (12 * INR c + 2) * eps <= 1/34) by (assert (2 * eps <= 1/1000) by (unfold eps; lra); lra). nra.
      + right. ring.
  Qed.
End Speeds.

(** On the first grid. *)
Theorem C89_first_grid : forall (L : Libm) (G : Geo F), two_or_threeF G ->
  forall (af : nat) (M V : R) (p : Par F) (P : Particles F) (n : nat) am, let NF := NumF L in
  cloud_okF L M p (p_x P) -> consistent P n -> spline p = Deg2 -> speeds_okF L V p P ->
  remeshFixedInit af p 2 (p_x P) = Ok am -> (prodlen (map fst am) <= 4294967295)%Z ->
  nodal_speeds_okF L V p (map fst am) P n.
Proof.
  intros L G HG af M V p P n am NF Hc HC Hs Hv H Hp. unfold NF in *. clear NF. pose proof (init_axes L G af M p (p_x P) am Hc H) as Ha.
  exact (grid_speeds L HG M p _ P n Hc Ha Hp HC Hs V Hv).
Qed.
(** On later grids, with the exception of [C86_later_grids_cover_partial]. *)
Theorem C89_later_grids_partial : forall (L : Libm) (G : Geo F), two_or_threeF G ->
  forall (af af' : nat) (M V : R) (p : Par F) (xs0 : list TV) (P : Particles F) (n : nat) am axes, let NF := NumF L in
  cloud_okF L M p xs0 -> cloud_okF L M p (p_x P) -> fval (dx p) <= 1048576 -> consistent P n -> spline p = Deg2 -> speeds_okF L V p P ->
  remeshFixedInit af p 2 xs0 = Ok am -> remeshFixedCont af' p (p_x P) (map snd am) = Ok axes -> (prodlen axes <= 4294967295)%Z ->
  (forall x k m, In x (p_x P) -> nth_error (map snd am) k = Some m -> off_cell_edgesF M p m (vget x k)) ->
  nodal_speeds_okF L V p axes P n.
Proof.
  intros L G HG af af' M V p xs0 P n am axes NF Hc0 Hc Hd1 HC Hs Hv H0 H Hp Ho. unfold NF in *. clear NF.
  assert (Ha : axes_okF M p (p_x P) axes) by (eapply cont_axes; [exact Hc0| | | | |]; eauto).
  exact (grid_speeds L HG M p _ P n Hc Ha Hp HC Hs V Hv).
Qed.
(** On the grid of a periodic simulation; [P] holds the particles and their ghosts. *)
Theorem C89_periodic_partial : forall (L : Libm) (G : Geo F), two_or_threeF G ->
  forall (af : nat) (M V : R) (p : Par F) (P : Particles F) (n : nat) axes, let NF := NumF L in
  cloud_okF L M p (p_x P) -> box_okF M p -> (forall x, In x (p_x P) -> near_boxF M p x) -> consistent P n -> spline p = Deg2 -> speeds_okF L V p P ->
  remeshFixed af p 4 = Ok axes -> (prodlen axes <= 4294967295)%Z ->
  nodal_speeds_okF L V p axes P n.
Proof.
  intros L G HG af M V p P n axes NF Hc Hb Hn HC Hs Hv H Hp. unfold NF in *. clear NF. pose proof (fixed_axes L G HG af M p (p_x P) axes Hc Hb Hn H) as Ha.
  exact (grid_speeds L HG M p _ P n Hc Ha Hp HC Hs V Hv).
Qed.

(** ** A case that meets the hypotheses: the two particles of C85, moving at (3, -1) and (1, 2), affine parts of 1/10, APIC. *)
Section Ex.
  Local Instance nfv : Num F := NumF ExSimF.libm0.
  Local Existing Instance Geo2.
  Definition velF_P : @Particles F (Geo2 F) :=
    mkParticles gridF_xs [mkV2 (nofZ 3) (nofZ (-1)); mkV2 (nofZ 1) (nofZ 2)] [vzero; vzero] [vzero; vzero] [zero_hist; zero_hist] [mident; mident]
      [mtab (fun _ _ => nofQ 1 10); mzero] [mzero; mzero].
  Lemma velF_ok : cloud_okF ExSimF.libm0 8 gridF_p (p_x velF_P) /\ consistent velF_P 2 /\ spline gridF_p = Deg2 /\ speeds_okF ExSimF.libm0 4 gridF_p velF_P /\ nltb (flip_ratio gridF_p) (nofZ 0) = true.
  Proof.
    split; [apply gridF_cloud|]. split; [constructor; reflexivity|]. split; [reflexivity|]. split; [|vm_compute; reflexivity].
    assert (E : dx gridF_p = S754_finite false 7205759403792794 (-56)) by (vm_compute; reflexivity).
    assert (B56 : bpow radix2 (-56) = / 72057594037927936) by (cbn; lra).
    assert (V : 99/1000 <= fval (dx gridF_p) <= 101/1000) by (rewrite E, fval_fin, B56; cbn [sfZ]; lra).
    assert (Z : forall z, (-4 <= z <= 4)%Z -> ffin (fofZ z) /\ Rabs (fval (fofZ z)) <= 4).
    { intros z Hz. destruct (fofZ_spec z ltac:(lia)) as (Fz & ->). split; auto. assert (-4 <= IZR z <= 4) by (split; apply IZR_le; lia). apply Rabs_le. lra. }
    constructor.
    - split; [apply Rle_trans with (bpow radix2 2); [apply bpow_le; lia|change (bpow radix2 2) with 4; lra]|apply Rle_trans with (bpow radix2 2); [change (bpow radix2 2) with 4; lra|apply bpow_le; lia]].
    - split; [apply Rle_trans with (bpow radix2 (-4)); [apply bpow_le; lia|change (/ 16 <= fval (dx gridF_p)); lra]|apply Rle_trans with (bpow radix2 0); [change (fval (dx gridF_p) <= 1); lra|apply bpow_le; lia]].
    - intros v k [<-|[<-|[]]] Hk; (destruct k as [|[|k]]; [| |cbn in Hk; lia]); [exact (Z 3%Z ltac:(lia))|exact (Z (-1)%Z ltac:(lia))|exact (Z 1%Z ltac:(lia))|exact (Z 2%Z ltac:(lia))].
    - intros _ B k l [<-|[<-|[]]] Hk Hl.
      + assert (Q : ffin (fofQ 1 10) /\ Rabs (fval (fofQ 1 10)) <= 4 * fval (dx gridF_p)).
        { assert (E' : fofQ 1 10 = S754_finite false 7205759403792794 (-56)) by (vm_compute; reflexivity). rewrite E'. split; [split; reflexivity|]. rewrite fval_fin, B56. cbn [sfZ]. apply Rabs_le. lra. }
        destruct k as [|[|k]]; try (cbn in Hk; lia); destruct l as [|[|l]]; try (cbn in Hl; lia); exact Q.
      + assert (Q : ffin (fofZ 0) /\ Rabs (fval (fofZ 0)) <= 4 * fval (dx gridF_p)) by (destruct (fofZ_spec 0 ltac:(lia)) as (Fz & ->); split; auto; rewrite Rabs_R0; lra).
        destruct k as [|[|k]]; try (cbn in Hk; lia); destruct l as [|[|l]]; try (cbn in Hl; lia); exact Q.
  Qed.
  Example C89_ex : exists am nodes, remeshFixedInit 20 gridF_p 2 gridF_xs = Ok am /\ p2g gridF_p (map fst am) velF_P massF_sched (resizeGrid (map fst am)) = Ok nodes /\
    forall nd k, In nd nodes -> (k < 2)%nat -> ffin (vget (nd_v nd) k) /\ Rabs (fval (vget (nd_v nd) k)) <= 140.
  Proof.
    assert (K : exists am, remeshFixedInit 20 gridF_p 2 gridF_xs = Ok am /\ (prodlen (map fst am) <=? 4294967295)%Z = true) by (apply ok_intro; vm_compute; reflexivity).
    destruct K as (am & E & K). apply Z.leb_le in K. destruct velF_ok as (Hc & HC & Hs & Hv & Hf).
    assert (C : INR (2 * Nat.pow 4 (@dim F (Geo2 F)) + length massF_sched) = 34) by (cbn; lra).
    destruct (C89_first_grid ExSimF.libm0 (Geo2 F) (or_introl eq_refl) 20 8 4 gridF_p velF_P 2 am Hc HC Hs Hv E K massF_sched) as (nodes & Eg & Kn).
    - unfold thread_schedule, massF_sched. cbn. apply perm_swap.
    - cbv zeta. rewrite C. apply Rle_trans with (bpow radix2 10); [cbn; lra|apply bpow_le; lia].
    - exists am, nodes. do 2 (split; [assumption|]). intros nd k Hi Hk. destruct (Kn nd k Hi Hk) as (F1 & B1). split; auto. change (nltb (flip_ratio gridF_p) (nofZ 0)) with true in B1. cbn iota in B1. lra.
  Qed.
End Ex.
Print Assumptions C89_first_grid.
Print Assumptions C89_later_grids_partial.
Print Assumptions C89_periodic_partial.
