(** * PropPlastic: C34-C39, C41, the return mappings seen through the stress update. *)
From Coq Require Import Reals ZArith Lra Lia List Bool.
From Verif Require Import Num NumR Tools Lin Types Transfer Rma Plastic Spec SpecPlastic LinProofs PlasticProofs RmaProofs PlasticModels PlasticGlue.
Import ListNotations.
Local Open Scope R_scope.

(** One stress update of a particle with trial deformation [F] and history [h], with Hencky
    elasticity, a correct SVD and admissible parameters. *)
Definition updated {G : Geo R} svd uabs (p : Par R) dt F tau h o : Prop :=
  svd_ok svd /\ elastic p /\ sane p /\ elastic_model p = Hencky /\ 0 < dt /\ plasticity svd uabs p dt F tau h = Ok o.

Ltac setup G HG H :=
  pose proof (geolaws G HG) as GL; destruct H as (Sv & El & Sa & Hk & Hdt & H);
  apply plast_inv in H; let r := fresh "r" in let Hr := fresh "Hr" in
  destruct H as (U & s & V & r & Esvd & Hr & HF & Htau & Hh & Hcnt & Hex);
  rewrite Hk in Htau; destruct (trial_pq _ _ El Sv _ _ _ _ Esvd) as (T & EP & EQ & ET & HU).

(** ** C34 *)
Theorem C34_elastic_states : forall G, two_or_three G -> forall svd uabs p dt F tau h o, updated svd uabs p dt F tau h o ->
  let S := trial_stress svd p F in
  elastic_domain p h (pressure S) (shear (q_prefac p) S) ->
  o_F o = F /\ o_tau o = S /\ h_dev (o_h o) = h_dev h /\ h_vol (o_h o) = h_vol h /\ o_count o = 0%nat /\ o_exit o = false.
Proof.
  intros G HG svd uabs p dt F tau h o H S D. setup G HG H. subst S. rewrite EP, EQ in D. rewrite ET.
  assert (Done : r_hencky r = t_e (trial s) -> r_upd r = Keep -> r_cnt r = 0%nat -> r_exit r = false -> h_dev (r_h r) = h_dev h -> h_vol (r_h r) = h_vol h ->
    o_F o = F /\ o_tau o = hencky_tau p U (t_e (trial s)) /\ h_dev (o_h o) = h_dev h /\ h_vol (o_h o) = h_vol h /\ o_count o = 0%nat /\ o_exit o = false).
  { intros A B C E I J. rewrite HF, Htau, Hh, Hcnt, Hex, A, B. auto 10. }
  pose proof (facQ_pos p Sa) as HQ. pose proof Sa as SA. destruct SA. unfold elastic_domain in D. unfold return_map in Hr. destruct (plastic_model p) eqn:Pm.
  - apply Ok_inj in Hr. subst r. apply Done; reflexivity.
  - apply Ok_inj in Hr. destruct (vm_res p El dt (trial s) T h ltac:(lra)) as (_ & K & _). rewrite (K D) in Hr. subst r. apply Done; reflexivity.
  - apply Ok_inj in Hr. destruct (dp_res p El dt (trial s) T h sa_M) as (_ & K). destruct (K (proj1 D)) as (_ & K' & _). rewrite (K' (proj2 D)) in Hr. subst r. apply Done; reflexivity.
  - apply Ok_inj in Hr. destruct (dps_res p El dt (trial s) T h sa_M) as (_ & K & _). rewrite (K (proj1 D) (proj2 D)) in Hr. subst r. apply Done; try reflexivity; cbn; destruct (use_pradhana p); reflexivity.
  - destruct (mcc_res uabs p El dt (trial s) T h Hdt sa_visc r Hr) as (r0 & pc & E & K & _). destruct (mcc_rma_spec uabs p dt El Sa _ _ _ _ _ _ E) as (A & _). destruct (A D) as (B & C).
    destruct (K B) as (K1 & K2 & K3 & K4 & K5 & K6). apply Done; auto. congruence.
  - apply Ok_inj in Hr. destruct (vmv_res p El dt (trial s) T h Hdt sa_visc sa_q r (eq_sym Hr)) as (_ & K & _). pose proof (K (proj1 D) (proj2 D)) as Kr. apply Done; rewrite Kr; reflexivity.
  - apply Ok_inj in Hr. destruct (dpv_res p El dt (trial s) T h Hdt sa_visc sa_M r (eq_sym Hr)) as (_ & K & _). destruct (K (proj1 D) (or_intror (proj2 D))) as (K1 & K2 & K3 & K4 & K5 & K6 & _). apply Done; auto.
  - destruct (mcc_res uabs p El dt (trial s) T h Hdt sa_visc r Hr) as (r0 & pc & E & K & _). destruct (mcc_rma_spec uabs p dt El Sa _ _ _ _ _ _ E) as (A & _). destruct (A D) as (B & C).
    destruct (K B) as (K1 & K2 & K3 & K4 & K5 & K6). apply Done; auto. congruence.
  - apply Ok_inj in Hr. destruct (dpm_res p El dt (trial s) T h Hdt sa_mu1 sa_mu2 HQ sa_tol r (eq_sym Hr)) as (_ & K & _). destruct (K (proj1 D) (or_intror (proj2 D))) as (K1 & K2 & K3 & K4 & K5 & K6 & _). apply Done; auto.
  - destruct (mccmui_res uabs p El dt (trial s) T h Hdt r Hr) as (r0 & pc & E & K & _). destruct (mcc_rma_spec uabs p dt El Sa _ _ _ _ _ _ E) as (A & _). destruct (A D) as (B & C).
    destruct (K B) as (K1 & K2 & K3 & K4 & K5 & K6 & _). apply Done; auto. congruence.
Qed.
Print Assumptions C34_elastic_states.

(** ** C35 *)
Theorem C35_von_mises : forall G, two_or_three G -> forall svd uabs p dt F tau h o, updated svd uabs p dt F tau h o -> plastic_model p = VM ->
  let S := trial_stress svd p F in let q := shear (q_prefac p) in
  pressure (o_tau o) = pressure S /\ q (o_tau o) = Rmin (q S) (q_max p) /\
  h_dev (o_h o) = h_dev h + (q S - q (o_tau o)) / (2 * q_prefac p * mu p) /\ h_vol (o_h o) = h_vol h /\
  (q_max p < q S -> o_count o = 1%nat /\ h_dg (o_h o) = (h_dev (o_h o) - h_dev h) / q_prefac p / dt).
Proof.
  intros G HG svd uabs p dt F tau h o H Pm S q. setup G HG H. subst S q. cbv beta. rewrite EP, EQ, Htau, Hh, Hcnt.
  unfold return_map in Hr. rewrite Pm in Hr. apply Ok_inj in Hr. destruct Sa. destruct (vm_res p El dt (trial s) T h ltac:(lra)) as (Rs & _ & K). rewrite Hr in *.
  destruct (res_pq p El U _ _ _ _ _ _ _ HU Rs) as (A & B). rewrite A, B, <- emu_R. repeat split; auto.
  - apply (rs_dev _ _ _ _ _ _ _ _ Rs).
  - rewrite (rs_vol _ _ _ _ _ _ _ _ Rs). ring.
  - apply K; auto.
  - destruct (K H) as (_ & _ & ->). rewrite (rs_dev _ _ _ _ _ _ _ _ Rs), Rmin_right, fmu_R by lra. pose proof (emu_pos p El). destruct El as (_ & _ & Hq). field. lra.
Qed.
Print Assumptions C35_von_mises.

(** ** C36 *)
Theorem C36_drucker_prager : forall G, two_or_three G -> forall svd uabs p dt F tau h o, updated svd uabs p dt F tau h o -> plastic_model p = DP ->
  let S := trial_stress svd p F in let q := shear (q_prefac p) in let yield := Mfric p * pressure S + q_cohesion p in
  (yield < 1/10000000000 -> pressure (o_tau o) = - q_cohesion p / Mfric p /\ q (o_tau o) = 0 /\
     h_vol (o_h o) = h_vol h + (pressure (o_tau o) - pressure S) / bulkK p) /\
  (1/10000000000 <= yield -> pressure (o_tau o) = pressure S /\ q (o_tau o) = Rmin (q S) yield /\ h_vol (o_h o) = h_vol h) /\
  h_dev (o_h o) = h_dev h + (q S - q (o_tau o)) / (2 * q_prefac p * mu p) /\
  q (o_tau o) <= Mfric p * pressure (o_tau o) + q_cohesion p.
Proof.
  intros G HG svd uabs p dt F tau h o H Pm S q yield. setup G HG H. subst S q. cbv beta. unfold yield. rewrite EP, EQ, Htau, Hh.
  unfold return_map in Hr. rewrite Pm in Hr. apply Ok_inj in Hr. destruct Sa. destruct (dp_res p El dt (trial s) T h sa_M) as (K1 & K2). rewrite Hr in *. rewrite <- emu_R.
  fold (dpy p (trial s)) in *. destruct (Rlt_le_dec (dpy p (trial s)) (1/10000000000)) as [L|L].
  - destruct (K1 L) as (Rs & _). destruct (res_pq p El U _ _ _ _ _ _ _ HU Rs) as (A & B). rewrite A, B. split; [|split; [intros; lra|]].
    + intros _. repeat split. apply (rs_vol _ _ _ _ _ _ _ _ Rs).
    + split; [rewrite Rminus_0_r; apply (rs_dev _ _ _ _ _ _ _ _ Rs)|]. right. field. lra.
  - destruct (K2 L) as (Rs & _). destruct (res_pq p El U _ _ _ _ _ _ _ HU Rs) as (A & B). rewrite A, B. split; [intros; lra|]. split.
    + intros _. repeat split. rewrite (rs_vol _ _ _ _ _ _ _ _ Rs). ring.
    + split; [apply (rs_dev _ _ _ _ _ _ _ _ Rs)|]. apply Rmin_r.
Qed.
Print Assumptions C36_drucker_prager.

(** ** C37 *)
(** The volume correction after the update: grows by the dilation at the tip, else is reset. *)
Definition corrected {G : Geo R} (p : Par R) (h h' : Hist R) (dv : option R) : Prop :=
  h_prad h' = if use_pradhana p then (match dv with Some d => h_prad h + d | None => 0 end) else h_prad h.
Theorem C37_softening_drucker_prager_partial : forall G, two_or_three G -> forall svd uabs p dt F tau h o, updated svd uabs p dt F tau h o -> plastic_model p = DPSoft ->
  let S := trial_stress svd p F in let q := shear (q_prefac p) in
  let shifted := pressure S + vol_shift p h in let tip := soft_tip p (h_dev h) in
  let yield := Mfric p * (shifted - tip) in
  (* tip predicted with the plastic strain of the unsoftened return *)
  let tip' := soft_tip p (h_dev h + (q S - yield) / (2 * q_prefac p * mu p)) in
  let at_tip := fun t => pressure (o_tau o) = t /\ q (o_tau o) = 0 /\ h_vol (o_h o) = h_vol h + (t - pressure S) / bulkK p /\
      corrected p h (o_h o) (Some ((t - pressure S) / bulkK p)) in
  (shifted <= tip -> at_tip tip) /\
  (tip < shifted -> q S <= yield -> o_F o = F /\ o_tau o = S /\ h_vol (o_h o) = h_vol h /\ corrected p h (o_h o) None /\ h_dg (o_h o) = 0) /\
  (tip < shifted -> yield < q S -> shifted < tip' -> at_tip tip') /\
  (tip < shifted -> yield < q S -> tip' <= shifted -> pressure (o_tau o) = pressure S /\ q (o_tau o) = Mfric p * (shifted - tip') /\
      h_vol (o_h o) = h_vol h /\ corrected p h (o_h o) None) /\
  h_dev (o_h o) = h_dev h + (q S - q (o_tau o)) / (2 * q_prefac p * mu p) /\ h_dev h <= h_dev (o_h o) /\
  tip <= soft_tip p (h_dev (o_h o)) <= 0 /\ (q (o_tau o) = 0 \/ q (o_tau o) <= Mfric p * (pressure (o_tau o) + vol_shift p h - tip)).
Proof.
  intros G HG svd uabs p dt F tau h o H Pm S q shifted tip yield tip' at_tip. setup G HG H. pose proof Sa as SA. destruct SA.
  subst S q shifted tip yield tip' at_tip. cbv beta zeta. rewrite EP, EQ, Htau, Hh, ET, <- emu_R.
  unfold return_map in Hr. rewrite Pm in Hr. apply Ok_inj in Hr. pose proof (dps_res p El dt (trial s) T h sa_M) as K. rewrite Hr in K. cbv zeta in K. clear Hr.
  fold (sh p h) in *. fold (tip0 p h) in *. fold (sy p (trial s) h) in *. fold (tip1 p (trial s) h) in *. fold (sy1 p (trial s) h) in *. unfold corrected.
  set (PP := P p (trial s)) in *. set (QQ := Q p (trial s)) in *. set (t0 := tip0 p h) in *. set (y := sy p (trial s) h) in *. set (t1 := tip1 p (trial s) h) in *.
  pose proof (emu_pos p El) as He. pose proof (Q_nonneg p El (trial s) T) as Q0. fold QQ in Q0.
  destruct K as (K1 & K2 & K3 & K4).
  assert (Mono : forall d, 0 <= d -> tip0 p h <= soft_tip p (h_dev h + d) <= 0) by (intros d Hd; apply tip_mono; auto; lra).
  assert (Dq : forall x, x <= QQ -> 0 <= (QQ - x) / e_mu_prefac p) by (intros x Hx; apply Rmult_le_pos; [lra|apply Rlt_le, Rinv_0_lt_compat; auto]).
  assert (Tip : forall tt, Res p (trial s) h r tt 0 (QQ / e_mu_prefac p) ((tt - PP) / bulkK p) ->
     (pressure (hencky_tau p U (r_hencky r)) = tt /\ shear (q_prefac p) (hencky_tau p U (r_hencky r)) = 0 /\ h_vol (r_h r) = h_vol h + (tt - PP) / bulkK p) /\
     h_dev (r_h r) = h_dev h + (QQ - shear (q_prefac p) (hencky_tau p U (r_hencky r))) / e_mu_prefac p /\ h_dev h <= h_dev (r_h r) /\ t0 <= soft_tip p (h_dev (r_h r)) <= 0).
  { intros tt Rs. destruct (res_pq p El U _ _ _ _ _ _ _ HU Rs) as (A & B). rewrite A, B. rewrite (rs_dev _ _ _ _ _ _ _ _ Rs), (rs_vol _ _ _ _ _ _ _ _ Rs), Rminus_0_r.
    specialize (Dq 0 Q0). rewrite Rminus_0_r in Dq. repeat split; try lra; apply Mono; auto. }
  destruct (Rle_lt_dec (PP + sh p h) t0) as [L|L].
  { destruct (K1 L) as (Rs & _ & _ & Pr). destruct (Tip _ Rs) as ((A & B & C) & D & E & I). rewrite A, B, C in *.
    split; [intros _; auto|]. split; [intros; lra|]. split; [intros; lra|]. split; [intros; lra|]. auto 10. }
  split; [intros; lra|]. destruct (Rle_lt_dec QQ y) as [L1|L1].
  { specialize (K2 L L1). subst r. cbn [r_upd r_h r_hencky] in *. rewrite HF, <- ET, EP, EQ. replace (QQ - QQ) with 0 by ring.
    assert (HD : h_dev (set_dg (if use_pradhana p then set_prad h 0 else h) 0) = h_dev h) by (destruct (use_pradhana p); reflexivity). rewrite HD.
    split; [intros _ _; destruct (use_pradhana p); auto 10|]. split; [intros; lra|]. split; [intros; lra|].
    split; [unfold Rdiv; ring|]. split; [lra|]. split; [specialize (Mono 0 (Rle_refl 0)); rewrite Rplus_0_r in Mono; exact Mono|]. right. exact L1. }
  split; [intros; lra|].
  assert (T01 : t0 <= t1 <= 0) by (apply Mono; fold y; apply Dq; lra).
  destruct (Rlt_le_dec (PP + sh p h) t1) as [L2|L2].
  { destruct (K3 L L1 L2) as (Rs & _ & _ & Pr). destruct (Tip _ Rs) as ((A & B & C) & D & E & I). rewrite A, B, C in *.
    split; [intros _; auto|]. split; [intros; lra|]. auto 10. }
  split; [intros; lra|]. destruct (K4 L L1 L2) as (Rs & _ & _ & Pr). destruct (res_pq p El U _ _ _ _ _ _ _ HU Rs) as (A & B). rewrite A, B.
  rewrite (rs_dev _ _ _ _ _ _ _ _ Rs), (rs_vol _ _ _ _ _ _ _ _ Rs).
  assert (Y : sy1 p (trial s) h <= y) by (unfold sy1, y, sy; apply Rmult_le_compat_l; [lra|]; fold t1; fold t0; lra).
  assert (D : 0 <= (QQ - sy1 p (trial s) h) / e_mu_prefac p) by (apply Dq; lra).
  split; [intros _ _ _; repeat split; auto; lra|]. repeat split; try (apply Mono; auto); try lra. right. unfold y, sy in Y. exact Y.
Qed.
Print Assumptions C37_softening_drucker_prager_partial.

(** ** C38 *)
(** The flow rule selected by the parameters, as a residual. *)
Definition flow_rule {G : Geo R} (p : Par R) (q y g : R) : R :=
  if use_dl p then flow_residual_dl p q y g else flow_residual_perzyna p q y g.
Lemma flow_rule_eq : forall G (p : @Par R G), flow_residual p = flow_rule p.
Proof. intros. unfold flow_residual, flow_rule. destruct (use_dl p); reflexivity. Qed.
(** Without viscosity both flow rules say q = y. *)
Lemma rate_independent : forall G (p : @Par R G) q y g, visc_time p = 0 -> flow_rule p q y g = q - y.
Proof.
  intros G p q y g H. unfold flow_rule, flow_residual_dl, flow_residual_perzyna, power. rewrite H, !Rmult_0_l, Rplus_0_r.
  destruct (use_dl p); [destruct (Req_EM_T 0 0) as [_|E]; [ring|now destruct E]|].
  assert (E : Rpower 1 (visc_exponent p) = 1) by (unfold Rpower; rewrite ln_1, Rmult_0_r; apply exp_0). rewrite E. field.
Qed.

(** A viscous return with plastic shear rate [g]: pressure kept, shear stress reduced to [q']. *)
Definition viscous_return {G : Geo R} (p : Par R) dt (S : TM) (h : Hist R) (o : PlOut R) (g q' : R) : Prop :=
  0 <= g /\ q' = shear (q_prefac p) S - 2 * (q_prefac p)² * mu p * (g * dt) /\
  pressure (o_tau o) = pressure S /\ shear (q_prefac p) (o_tau o) = Rabs q' /\
  h_dev (o_h o) = h_dev h + q_prefac p * (g * dt) /\ h_vol (o_h o) = h_vol h /\ h_dg (o_h o) = g /\ o_count o = 1%nat.

Theorem C38_viscous_von_mises : forall G, two_or_three G -> forall svd uabs p dt F tau h o, updated svd uabs p dt F tau h o -> plastic_model p = VMVisc ->
  let S := trial_stress svd p F in let yield := vm_yield p (h_dev h) in
  p_min p * exp (- xi p * h_vol h) <= pressure S -> yield < shear (q_prefac p) S ->
  exists g q', viscous_return p dt S h o g q' /\
    (visc_exponent p = 1 -> xi p = 0 -> o_exit o = false /\ flow_rule p q' yield g = 0 /\ yield <= q' < shear (q_prefac p) S) /\
    (visc_exponent p <> 1 \/ xi p <> 0 -> o_exit o = false -> Rabs (flow_rule p q' (vm_yield p (h_dev (o_h o))) g) < 1/100) /\
    (visc_time p = 0 -> visc_exponent p = 1 -> xi p = 0 -> q' = q_max p).
Proof.
  intros G HG svd uabs p dt F tau h o H Pm S yield H1 H2. setup G HG H. subst S yield. rewrite EP in H1. rewrite EQ in H2.
  unfold return_map in Hr. rewrite Pm in Hr. apply Ok_inj in Hr. destruct Sa. destruct (vmv_res p El dt (trial s) T h Hdt sa_visc sa_q r (eq_sym Hr)) as (_ & _ & K).
  destruct (K H1 H2) as (g & Hg & Rs & _ & Cn & Dg & E1 & E2). clear K. destruct (res_pq p El U _ _ _ _ _ _ _ HU Rs) as (A & B).
  rewrite flow_rule_eq in *. exists g, (Q p (trial s) - f_mu_prefac p * (g * dt)). assert (FM : f_mu_prefac p = 2 * (q_prefac p)² * mu p) by (rewrite fmu_R, emu_R; unfold Rsqr; ring). rewrite FM in *.
  rewrite <- Hex, <- Hh in *. rewrite EQ. split; [|split; [|split]].
  - unfold viscous_return. rewrite EQ, EP, Htau, A, B, Hcnt. repeat split; auto.
    + pose proof (rs_dev _ _ _ _ _ _ _ _ Rs) as X; rewrite <- Hh in X; exact X.
    + pose proof (rs_vol _ _ _ _ _ _ _ _ Rs) as X; rewrite <- Hh in X; rewrite X; ring.
  - intros N X. exact (E1 N X).
  - intros N X. exact (E2 N sa_n X).
  - intros Z N X. destruct (E1 N X) as (_ & E & _). rewrite rate_independent in E by auto. unfold vy, vm_yield in E. rewrite X in E. replace (- 0 * h_dev h) with 0 in E by ring. rewrite exp_0 in E. lra.
Qed.
Print Assumptions C38_viscous_von_mises.

Theorem C38_viscous_drucker_prager : forall G, two_or_three G -> forall svd uabs p dt F tau h o, updated svd uabs p dt F tau h o -> plastic_model p = DPVisc ->
  let S := trial_stress svd p F in let shifted := pressure S + vol_shift p h in let yield := Mfric p * shifted + q_cohesion p in
  (shifted < - q_cohesion p / Mfric p -> pressure (o_tau o) = - q_cohesion p / Mfric p /\ shear (q_prefac p) (o_tau o) = 0 /\
     h_vol (o_h o) = h_vol h + (pressure (o_tau o) - pressure S) / bulkK p /\ h_dev (o_h o) = h_dev h + shear (q_prefac p) S / (2 * q_prefac p * mu p) /\
     o_count o = 1%nat /\ o_exit o = false) /\
  (- q_cohesion p / Mfric p < shifted -> yield < shear (q_prefac p) S ->
   exists g q', viscous_return p dt S h o g q' /\
    (visc_exponent p = 1 -> o_exit o = false /\ flow_rule p q' yield g = 0 /\ yield <= q' < shear (q_prefac p) S) /\
    (visc_exponent p <> 1 -> o_exit o = false -> Rabs (flow_rule p q' yield g) < 1/100) /\
    (visc_time p = 0 -> visc_exponent p = 1 -> q' = yield)).
Proof.
  intros G HG svd uabs p dt F tau h o H Pm S shifted yield. setup G HG H. subst S shifted yield. rewrite EP, EQ.
  unfold return_map in Hr. rewrite Pm in Hr. apply Ok_inj in Hr. destruct Sa. destruct (dpv_res p El dt (trial s) T h Hdt sa_visc sa_M r (eq_sym Hr)) as (K0 & _ & _ & K).
  fold (sh p h) in *. fold (tipd p) in *. fold (dy p (trial s) h) in *. split.
  { intros L. destruct (K0 L) as (Rs & _ & C & X & _). destruct (res_pq p El U _ _ _ _ _ _ _ HU Rs) as (A & B). rewrite Htau, A, B, Hcnt, Hex, <- emu_R, Hh.
    repeat split; auto; [apply (rs_vol _ _ _ _ _ _ _ _ Rs)|apply (rs_dev _ _ _ _ _ _ _ _ Rs)]. }
  intros H1 H2. destruct (K H1 H2) as (g & Hg & Rs & _ & Cn & Dg & E1 & E2). clear K K0. destruct (res_pq p El U _ _ _ _ _ _ _ HU Rs) as (A & B).
  rewrite flow_rule_eq in *. exists g, (Q p (trial s) - f_mu_prefac p * (g * dt)). assert (FM : f_mu_prefac p = 2 * (q_prefac p)² * mu p) by (rewrite fmu_R, emu_R; unfold Rsqr; ring). rewrite FM in *.
  rewrite <- Hex, <- Hh in *. split; [|split; [|split]].
  - unfold viscous_return. rewrite EQ, EP, Htau, A, B, Hcnt. repeat split; auto.
    + pose proof (rs_dev _ _ _ _ _ _ _ _ Rs) as X; rewrite <- Hh in X; exact X.
    + pose proof (rs_vol _ _ _ _ _ _ _ _ Rs) as X; rewrite <- Hh in X; rewrite X; ring.
  - intros N. exact (E1 N).
  - intros N X. exact (E2 N sa_n X).
  - intros Z N. destruct (E1 N) as (_ & E & _). rewrite rate_independent in E by auto. lra.
Qed.
Print Assumptions C38_viscous_drucker_prager.

(** ** C41 *)
Theorem C41_dp_mui : forall G, two_or_three G -> forall svd uabs p dt F tau h o, updated svd uabs p dt F tau h o -> plastic_model p = DPMui ->
  let S := trial_stress svd p F in let shifted := pressure S + vol_shift p h in let tip := - q_cohesion p / mu_1 p in
  tip < shifted -> mu_1 p * shifted + q_cohesion p + stress_tolerance p < shear (q_prefac p) S ->
  exists g q', 0 < g /\ viscous_return p dt S h o g q' /\ o_exit o = false /\
    q' = h_muI (o_h o) * pressure S + mu_1 p * vol_shift p h + q_cohesion p /\
    h_muI (o_h o) = mu_1 p + (mu_2 p - mu_1 p) / (I_ref p / (grain_diameter p * sqrt (rho_s p)) * sqrt (shifted - tip + stress_tolerance p) / g + 1) /\
    mu_1 p <= h_muI (o_h o) <= mu_2 p /\ (mu_1 p < mu_2 p -> mu_1 p < h_muI (o_h o) < mu_2 p) /\
    (q_cohesion p = 0 -> vol_shift p h = 0 -> shear (q_prefac p) (o_tau o) = h_muI (o_h o) * pressure (o_tau o)).
Proof.
  intros G HG svd uabs p dt F tau h o H Pm S shifted tip H1 H2. pose proof H as (_ & _ & Sa0 & _). pose proof (facQ_pos p Sa0) as HQ.
  setup G HG H. subst S shifted tip. rewrite EP in *. rewrite EQ in H2.
  unfold return_map in Hr. rewrite Pm in Hr. apply Ok_inj in Hr. destruct Sa. destruct (dpm_res p El dt (trial s) T h Hdt sa_mu1 sa_mu2 HQ sa_tol r (eq_sym Hr)) as (_ & _ & K).
  destruct (K H1 H2) as (g & Hg & Rs & _ & Cn & Ex & Dg & _ & M1 & M2 & Eq & Em & _). clear K. destruct (res_pq p El U _ _ _ _ _ _ _ HU Rs) as (A & B).
  assert (FQ : fac_Q p = I_ref p / (grain_diameter p * sqrt (rho_s p))) by (unfold fac_Q; numR; reflexivity). rewrite FQ in Em.
  fold (sh p h) in *. fold (tipm p) in *. exists g, (Q p (trial s) - f_mu_prefac p * (g * dt)). assert (FM : f_mu_prefac p = 2 * (q_prefac p)² * mu p) by (rewrite fmu_R, emu_R; unfold Rsqr; ring). rewrite FM in *.
  rewrite Hh, Hex. unfold my in Eq. split; auto. split.
  { unfold viscous_return. rewrite EQ, EP, Htau, A, B, Hcnt, Hh. repeat split; auto; try lra.
    + apply (rs_dev _ _ _ _ _ _ _ _ Rs).
    + rewrite (rs_vol _ _ _ _ _ _ _ _ Rs). ring. }
  split; auto. split; [rewrite Eq; ring|]. split; auto. split; auto. split; auto.
  intros C0 S0. rewrite Htau, A, B, Eq, Rabs_pos_eq.
  - fold (sh p h) in S0. rewrite S0, C0. ring.
  - fold (sh p h) in S0. unfold tipm in H1. rewrite C0, S0 in *. assert (- 0 / mu_1 p = 0) by (field; lra).
    replace (mu_1 p * (P p (trial s) + 0) + 0 + (h_muI (r_h r) - mu_1 p) * P p (trial s)) with (h_muI (r_h r) * P p (trial s)) by ring. apply Rmult_le_pos; lra.
Qed.
Print Assumptions C41_dp_mui.

(** DPMui beyond the tip. *)
Theorem C41_dp_mui_tip : forall G, two_or_three G -> forall svd uabs p dt F tau h o, updated svd uabs p dt F tau h o -> plastic_model p = DPMui ->
  let S := trial_stress svd p F in pressure S + vol_shift p h < - q_cohesion p / mu_1 p ->
  pressure (o_tau o) = - q_cohesion p / mu_1 p /\ shear (q_prefac p) (o_tau o) = 0 /\ h_muI (o_h o) = mu_1 p /\ o_count o = 1%nat /\ o_exit o = false.
Proof.
  intros G HG svd uabs p dt F tau h o H Pm S H1. pose proof H as (_ & _ & Sa0 & _). pose proof (facQ_pos p Sa0) as HQ.
  setup G HG H. subst S. rewrite EP in *.
  unfold return_map in Hr. rewrite Pm in Hr. apply Ok_inj in Hr. destruct Sa. destruct (dpm_res p El dt (trial s) T h Hdt sa_mu1 sa_mu2 HQ sa_tol r (eq_sym Hr)) as (K & _).
  destruct (K H1) as (Rs & _ & C & X & M & _). destruct (res_pq p El U _ _ _ _ _ _ _ HU Rs) as (A & B). rewrite Htau, A, B, Hh, Hcnt, Hex. auto.
Qed.
Print Assumptions C41_dp_mui_tip.
