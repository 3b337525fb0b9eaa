(** * PropFriction: C62 and C63, the plastic shear rate, friction coefficient and viscosity stored with a particle. *)
From Coq Require Import Reals ZArith Lra Lia List Bool.
From Verif Require Import Num NumR Tools Lin Types Remesh Objects Transfer Rma Plastic Step Spec SpecStep SpecMech SpecPlastic SpecMaterial SpecFriction SvdExist LinProofs ResProofs PloopProofs PlasticProofs RmaProofs PlasticModels PlasticGlue StepProofs SpecTime TimeProofs PlateProofs GuardProofs Examples ExStep PropStep PropPlastic PropRma PropMaterial PropDefined ExPlastic FrictionProofs.
Import ListNotations.
Local Open Scope R_scope.

(** ** C62 *)
(** The stored plastic shear rate is the mean rate of the plastic shear strain over the step. *)
Definition C62_statement : Prop := forall G, two_or_three G -> forall svd uabs p dt F tau h o, updated svd uabs p dt F tau h o ->
  h_dev (o_h o) <> h_dev h -> h_dg (o_h o) = mean_shear_rate p dt h (o_h o).
Theorem C62_shear_rate_partial : forall G, two_or_three G -> forall svd uabs p dt F tau h o, updated svd uabs p dt F tau h o ->
  (plastic_model p = DPMui -> - q_cohesion p / mu_1 p <= pressure (trial_stress svd p F) + vol_shift p h) ->
  h_dev (o_h o) <> h_dev h -> h_dg (o_h o) = mean_shear_rate p dt h (o_h o).
Proof.
  intros G HG svd uabs p dt F tau h o H Tp Hne. setup G HG H. rewrite EP in Tp. rewrite Hh in *. exact (rate_all uabs p El dt (trial s) h Hdt r Hr Tp Hne).
Qed.
Print Assumptions C62_shear_rate_partial.
(** At the tip of the mu(I) Drucker-Prager model the strain increment is stored instead of the rate. *)
Theorem C62_tip : forall G, two_or_three G -> forall svd uabs p dt F tau h o, updated svd uabs p dt F tau h o -> plastic_model p = DPMui ->
  pressure (trial_stress svd p F) + vol_shift p h < - q_cohesion p / mu_1 p -> h_dg (o_h o) = mean_shear_rate p dt h (o_h o) * dt.
Proof.
  intros G HG svd uabs p dt F tau h o H Pm Tp. setup G HG H. rewrite EP in Tp. rewrite Hh in *. unfold return_map in Hr. rewrite Pm in Hr. apply Ok_inj in Hr. subst r.
  unfold pl_DPMui, mean_shear_rate. numR. change (- bulkK p * t_tr (trial s)) with (P p (trial s)). cbv zeta.
  assert (Hs : (if use_pradhana p then - bulkK p * h_prad h else #0%num) = vol_shift p h) by (rewrite nofZ_R; unfold vol_shift; destruct (use_pradhana p); reflexivity).
  rewrite Hs. match goal with |- context [Rltb ?a ?b] => destruct (Rltb_spec a b) as [L|L]; [|lra] end.
  cbn [r_h h_dg h_dev set_prad set_dg add_vol add_dev set_visc set_muI]. rewrite ?nofZ_R. numR. rewrite d_prefac_R. destruct El as (_ & _ & Eq). field. lra.
Qed.
Print Assumptions C62_tip.
Lemma pl_updated_dt : forall uabs pm hl M c x n dl mb dt a b h, 0 < M -> 0 <= c -> 0 <= x -> 0 < n -> fine pm hl mb -> 0 < dt ->
  exists o, updated svdx uabs (pl_par pm hl M c x n dl mb) dt (stretch a b) mzero h o.
Proof.
  intros uabs pm hl M c x n dl mb dt a b h H1 H2 H3 H4 Hm Hd.
  destruct (C46_defined_partial _ _ _ svdx uabs (pl_par pm hl M c x n dl mb) dt (stretch a b) mzero h Hm) as (o & E).
  exists o. split; [apply svdx_ok|]. split; [apply pl_elastic|]. split; [now apply pl_sane|]. split; [reflexivity|]. split; [auto|exact E].
Qed.
Theorem C62_refuted : ~ C62_statement.
Proof.
  intros S. set (p := pl_par DPMui NoHard 1 0 0 1 false false). set (F := stretch 1 0).
  destruct (pl_updated_dt Rabs DPMui NoHard 1 0 0 1 false false (1/2) 1 0 h0) as (o & H); try lra; [fin|]. fold p F in H.
  destruct (stretch_q DPMui NoHard 1 0 0 1 false false 1 0) as (A & B); try lra. fold p F in A, B.
  assert (V0 : vol_shift p h0 = 0) by (unfold vol_shift; cbn; lra).
  assert (Tp : pressure (trial_stress svdx p F) + vol_shift p h0 < - q_cohesion p / mu_1 p) by (rewrite A, V0; cbn [q_cohesion mu_1 p pl_par]; lra).
  pose proof (C62_tip _ (or_introl eq_refl) svdx Rabs p (1/2) F mzero h0 o H eq_refl Tp) as E1.
  assert (D : h_dev (o_h o) = h_dev h0 + shear (q_prefac p) (trial_stress svdx p F) / (2 * q_prefac p * mu p)).
  { clear E1. pose proof H as H'. setup (Geo2 R) (or_introl (eq_refl (Geo2 R)) : two_or_three (Geo2 R)) H'. rewrite EP in Tp. rewrite EQ. rewrite Hh.
    unfold return_map in Hr. change (plastic_model p) with DPMui in Hr. cbv iota in Hr. apply Ok_inj in Hr. pose proof (facQ_pos p Sa) as HQ. destruct Sa.
    destruct (dpm_res p El (1/2) (trial s) T h0 Hdt sa_mu1 sa_mu2 HQ sa_tol r (eq_sym Hr)) as (K & _). destruct (K Tp) as (Rs & _). rewrite (rs_dev _ _ _ _ _ _ _ _ Rs), emu_R. reflexivity. }
  assert (Hq : 0 < shear (q_prefac p) (trial_stress svdx p F) / (2 * q_prefac p * mu p)).
  { unfold p at 3 4. rewrite pl_mu. cbn [q_prefac pl_par]. apply Rdiv_lt_0_compat; lra. }
  assert (Hne : h_dev (o_h o) <> h_dev h0) by lra.
  pose proof (S _ (or_introl eq_refl) svdx Rabs p (1/2) F mzero h0 o H Hne) as E2. rewrite E1 in E2.
  assert (0 < mean_shear_rate p (1/2) h0 (o_h o)); [|lra]. unfold mean_shear_rate. cbn [q_prefac p pl_par]. apply Rdiv_lt_0_compat; lra.
Qed.
Print Assumptions C62_refuted.

(** ** C63 *)
(** Viscous Drucker-Prager: q = friction * pressure + cohesion when the particle yields in shear. *)
Theorem C63_viscous_drucker_prager : forall G, two_or_three G -> forall svd uabs p dt F tau h o, updated svd uabs p dt F tau h o -> plastic_model p = DPVisc ->
  let S := trial_stress svd p F in let shifted := pressure S + vol_shift p h in let yield := Mfric p * shifted + q_cohesion p in
  let q' := relaxed_shear p (shear (q_prefac p) S) h (o_h o) in let m := h_muI (o_h o) in
  (use_mibf p = false -> m = h_muI h) /\
  (use_mibf p = true -> shifted <= - q_cohesion p / Mfric p \/ shear (q_prefac p) S <= yield -> m = Mfric p) /\
  (use_mibf p = true -> - q_cohesion p / Mfric p < shifted -> yield < shear (q_prefac p) S ->
     shear (q_prefac p) (o_tau o) = Rabs q' /\
     (1/10000000000 <= Rabs shifted -> q' = m * shifted + q_cohesion p) /\ (Rabs shifted < 1/10000000000 -> m = 10000000000)).
Proof.
  intros G HG svd uabs p dt F tau h o H Pm S shifted yield q' m. setup G HG H. subst S shifted yield q' m. cbv beta zeta. rewrite EP, EQ, Htau, Hh.
  unfold return_map in Hr. rewrite Pm in Hr. apply Ok_inj in Hr. destruct Sa. destruct (dpv_mu p El dt (trial s) h sa_M r (eq_sym Hr)) as (K1 & K2 & K3).
  destruct (dpv_res p El dt (trial s) T h Hdt sa_visc sa_M r (eq_sym Hr)) as (_ & _ & _ & K4). fold (sh p h). split; [exact K1|]. split; [exact K2|]. intros Um L1 L2.
  specialize (K3 Um L1 L2). destruct (K4 L1 L2) as (g & _ & Rs & _). destruct (res_pq p El U _ _ _ _ _ _ _ HU Rs) as (_ & B). rewrite B. rewrite K3. clear K1 K2 K3 K4.
  unfold relaxed_shear. rewrite <- emu_R. split.
  - rewrite (rs_dev _ _ _ _ _ _ _ _ Rs), fm_R. f_equal. ring.
  - destruct (Rlt_dec (Rabs (P p (trial s) + sh p h)) (1/10000000000)) as [L|L]; split; intros L3; try lra.
    field. intros Z. rewrite Z, Rabs_R0 in L. lra.
Qed.
Print Assumptions C63_viscous_drucker_prager.

(** Cam-Clay: with p and q the values that the return aims at, q = friction * sqrt((p + beta pc)(pc - p)). *)
Theorem C63_cam_clay : forall G, two_or_three G -> forall svd uabs p dt F tau h o, updated svd uabs p dt F tau h o -> plastic_model p = MCC \/ plastic_model p = MCCVisc ->
  hardening_law p <> NoHard \/ use_mibf p = false ->
  let S := trial_stress svd p F in let pt := target_pressure p dt (pressure S) h (o_h o) in let qt := target_shear p dt (shear (q_prefac p) S) h (o_h o) in
  let pc := current_pc p h (o_h o) in let m := h_muI (o_h o) in
  let yields := 0 < cam_clay (Mfric p) (beta p) (preconsolidation p (h_vol h)) (pressure S) (shear (q_prefac p) S) in
  (use_mibf p = false -> m = h_muI h) /\
  (use_mibf p = true -> ~ yields -> m = Mfric p) /\
  (use_mibf p = true -> yields ->
     (pt < - beta p * pc + stress_tolerance p \/ pc - stress_tolerance p < pt -> m = Mfric p) /\
     (- beta p * pc + stress_tolerance p <= pt <= pc - stress_tolerance p -> 0 < stress_tolerance p -> qt = m * sqrt ((pt + beta p * pc) * (pc - pt))) /\
     (plastic_model p = MCC \/ use_dl p = false -> pt = pressure (o_tau o) /\ (0 < shear (q_prefac p) S -> Rabs qt = shear (q_prefac p) (o_tau o))) /\
     (explicit_hardening p -> 0 < stress_tolerance p -> Mfric p <= m /\ (plastic_model p = MCC \/ use_dl p = true -> m = Mfric p))).
Proof.
  intros G HG svd uabs p dt F tau h o H Pm NH S pt qt pc m yields. setup G HG H. subst S pt qt pc m yields. cbv beta zeta. rewrite EP, EQ, Htau, Hh.
  assert (Hr' : pl_MCC uabs p dt (trial s) h = Ok r) by (unfold return_map in Hr; destruct Pm as [Pm|Pm]; rewrite Pm in Hr; exact Hr). clear Hr.
  pose proof Sa as SA. destruct SA. destruct (mcc_mu uabs p El dt (trial s) h Hdt sa_visc) with (r := r) as (r0 & c & E & K0 & K1 & K2); auto; [intuition congruence|].
  destruct (mcc_res uabs p El dt (trial s) T h Hdt sa_visc r Hr') as (r1 & c1 & E' & _ & K3). assert (r1 = r0) by congruence. subst r1.
  destruct (mcc_rma_spec uabs p dt El Sa _ _ _ _ _ _ E) as (A1 & A2). split; [exact K0|]. split.
  { intros Um N. apply K1; auto. apply A1. apply Rnot_lt_le in N. exact N. }
  intros Um Y. destruct (A2 Y) as (Pl & B1 & _). destruct (K2 Um Pl) as (qs & E1 & E2 & E3 & E4 & E5 & E6). clear K0 K1 K2 A1 A2.
  destruct (K3 Pl) as (_ & _ & b & qs' & Rs & D1 & D2 & D3). clear K3.
  unfold target_pressure, target_shear. rewrite <- emu_R, <- E1, <- E2. split; [exact E5|]. split; [|split].
  - intros L Tp. rewrite E6 by exact L. field. apply Rgt_not_eq, sqrt_lt_R0, Rmult_lt_0_compat; lra.
  - intros Nd. destruct (res_pq p El U _ _ _ _ _ _ _ HU Rs) as (C1 & C2).
    assert (b = 1 /\ dl_weight p dt = 1) as (B0 & W0).
    { unfold dl_weight. destruct Pm as [Pm|Pm]; rewrite Pm in *; [split; auto; now apply D1|]. destruct Nd as [Nd|Nd]; [discriminate|]. rewrite Nd. split; auto. now apply D3. }
    rewrite B0 in *. rewrite C1, C2. split; [ring|]. intros Q0. destruct (Rltb_spec 0 (Q p (trial s))) as [L|L]; [|lra].
    f_equal. rewrite E1, W0, (rs_dev _ _ _ _ _ _ _ _ Rs). pose proof (emu_pos p El). field. lra.
  - intros Ex Tp. assert (X : explicit_law p) by (unfold explicit_law; destruct Ex as [-> | ->]; exact I). specialize (B1 X).
    assert (Hc : current_pc p h (r_h r) = preconsolidation p (h_vol h)) by (unfold current_pc; destruct Ex as [-> | ->]; reflexivity). rewrite Hc in *. set (cc := preconsolidation p (h_vol h)) in *.
    apply rng_ellipse in B1; [|lra].
    destruct (Rlt_le_dec (rm_p r0) (- beta p * cc + stress_tolerance p)) as [L1|L1]; [rewrite E5; auto; lra|].
    destruct (Rlt_le_dec (cc - stress_tolerance p) (rm_p r0)) as [L2|L2]; [rewrite E5; auto; lra|].
    rewrite E6 by lra. set (w := sqrt ((rm_p r0 + beta p * cc) * (cc - rm_p r0))) in *.
    assert (W : 0 < w) by (apply sqrt_lt_R0, Rmult_lt_0_compat; lra).
    assert (Hq : rm_q r0 = Mfric p * w) by (rewrite B1; unfold w; f_equal; f_equal; ring). split.
    + apply (Rmult_le_reg_r w); auto. replace (qs / w * w) with qs by (field; lra). lra.
    + intros Pc. rewrite E3, Hq by (destruct Pc; [left; congruence|right; auto]). field. lra.
Qed.
Print Assumptions C63_cam_clay.

(** mu(I) Cam-Clay: when the particle yields in shear, with plastic shear rate g, the stress lies
    on the yield ellipse widened by the rate-dependent part of the friction, and the stored
    viscosity is that part of the stress over the rate. *)
Theorem C63_mcc_mui : forall G, two_or_three G -> forall svd uabs p dt F tau h o, updated svd uabs p dt F tau h o -> plastic_model p = MCCMui ->
  let S := trial_stress svd p F in let q := shear (q_prefac p) in let ps := pressure (o_tau o) in let m := h_muI (o_h o) in
  let pc := current_pc_above p h (o_h o) ps in let range := ps + beta p * pc + stress_tolerance p in
  (h_dev (o_h o) = h_dev h -> explicit_hardening p -> 0 < stress_tolerance p -> m = mu_1 p /\ h_visc (o_h o) = 0) /\
  (h_dev (o_h o) <> h_dev h -> 0 < range -> exists yq, yq + stress_tolerance p < q S /\
     let g := h_dg (o_h o) in let extra := (m - mu_1 p) * sqrt ((pc - ps) * range) in
     0 < g /\ h_dev (o_h o) = h_dev h + q_prefac p * (g * dt) /\ mu_1 p <= m <= mu_2 p /\
     m = mu_1 p + (mu_2 p - mu_1 p) / (I_ref p / (grain_diameter p * sqrt (rho_s p)) * sqrt range / g + 1) /\
     relaxed_shear p (q S) h (o_h o) = yq + extra /\ (0 <= yq -> 0 < q S -> q (o_tau o) = yq + extra) /\ h_visc (o_h o) = extra / g /\
     (explicit_hardening p -> yq = mu_1 p * sqrt ((pc - ps) * (beta p * pc + ps)))).
Proof.
  intros G HG svd uabs p dt F tau h o H Pm S q ps m pc range. pose proof H as (_ & _ & Sa0 & _). pose proof (facQ_pos p Sa0) as HQ. setup G HG H. pose proof Sa as SA. destruct SA.
  subst S q. cbv beta. rewrite EQ. unfold return_map in Hr. rewrite Pm in Hr.
  destruct (mccmui_res uabs p El dt (trial s) T h Hdt r Hr) as (r0 & c & E & K1 & K2). destruct (mccmui_mu uabs p El dt (trial s) h Hdt sa_mu2 HQ sa_tol r Hr) as (r1 & c1 & E' & K3 & K4).
  assert (r1 = r0) by congruence. subst r1. destruct (mcc_rma_spec uabs p dt El Sa _ _ _ _ _ _ E) as (A1 & A2).
  assert (FQ : fac_Q p = I_ref p / (grain_diameter p * sqrt (rho_s p))) by (unfold fac_Q; numR; reflexivity). rewrite <- FQ.
  assert (B : rm_plastic r0 = false \/ Q p (trial s) <= rm_q r0 + stress_tolerance p \/ rm_plastic r0 = true /\ rm_q r0 + stress_tolerance p < Q p (trial s)).
  { destruct (rm_plastic r0); auto. destruct (Rle_lt_dec (Q p (trial s)) (rm_q r0 + stress_tolerance p)); auto. }
  assert (Hps : rm_plastic r0 = true -> ps = rm_p r0).
  { intros Pl. destruct (K2 Pl) as (_ & _ & _ & qs & Rs & _). destruct (res_pq p El U _ _ _ _ _ _ _ HU Rs) as (C1 & _). unfold ps. now rewrite Htau. }
  assert (Hrl : relaxed_shear p (Q p (trial s)) h (o_h o) = Q p (trial s) - e_mu_prefac p * (h_dev (r_h r) - h_dev h)) by (unfold relaxed_shear; now rewrite Hh, <- emu_R).
  rewrite Hrl. subst m pc range. rewrite Hh. destruct B as [B|[B|(Pl & B)]].
  - destruct (K3 (or_introl B)) as (M1 & M2 & M3). split; [auto|]. intros N. congruence.
  - destruct (K3 (or_intror B)) as (M1 & M2 & M3). split; [auto|]. intros N. congruence.
  - specialize (K4 Pl B). cbv zeta in K4. rewrite <- (Hps Pl) in K4. destruct (K2 Pl) as (_ & _ & _ & qs & Rs & Q1 & _).
    assert (Pc : explicit_hardening p -> current_pc_above p h (r_h r) ps = preconsolidation p (h_vol h) /\ on_ellipse (mu_1 p) (beta p) (preconsolidation p (h_vol h)) ps (rm_q r0)).
    { intros Ex. split; [unfold current_pc_above; destruct Ex as [-> | ->]; reflexivity|]. rewrite (Hps Pl).
      destruct (Rle_lt_dec (cam_clay (mu_1 p) (beta p) (preconsolidation p (h_vol h)) (P p (trial s)) (Q p (trial s))) 0) as [L1|L1]; [destruct (A1 L1); congruence|].
      destruct (A2 L1) as (_ & B1 & _). apply B1. unfold explicit_law; destruct Ex as [-> | ->]; exact I. }
    set (range := ps + beta p * current_pc_above p h (r_h r) ps + stress_tolerance p) in *.
    assert (Main : 0 < range -> h_dev (r_h r) <> h_dev h).
    { intros Rg. destruct (K4 Rg) as (g & Hg & _ & Hd & _). rewrite Hd. destruct El as (_ & _ & Eq). assert (0 < q_prefac p * (g * dt)) by (apply Rmult_lt_0_compat; auto; apply Rmult_lt_0_compat; auto). lra. }
    split.
    + intros Z Ex Tp. exfalso. apply Main; auto. destruct (Pc Ex) as (P1 & ((P2 & _) & _)). unfold range. rewrite P1. lra.
    + intros _ Rg. exists (rm_q r0). split; [exact B|]. destruct (K4 Rg) as (g & Hg & Hdg & Hd & M1 & M2 & M3 & M4). cbv zeta. rewrite Hdg.
      assert (Rl : Q p (trial s) - e_mu_prefac p * (h_dev (r_h r) - h_dev h) = rm_q r0 + (h_muI (r_h r) - mu_1 p) * sqrt ((current_pc_above p h (r_h r) ps - ps) * range)).
      { rewrite <- M3, Hd, fm_R. ring. }
      split; [auto|]. split; [auto|]. split; [auto|]. split; [auto|]. split; [exact Rl|]. split; [|split; [exact M4|]].
      * intros Y0 Q0. rewrite Htau. destruct (res_pq p El U _ _ _ _ _ _ _ HU Rs) as (_ & C2). rewrite C2. destruct (Rltb_spec 0 (Q p (trial s))); [|lra].
        rewrite <- Rl. rewrite (rs_dev _ _ _ _ _ _ _ _ Rs). destruct (Rltb_spec (rm_q r0 + stress_tolerance p) (Q p (trial s))); [|lra].
        rewrite Rabs_pos_eq by lra. pose proof (emu_pos p El). field. lra.
      * intros Ex. destruct (Pc Ex) as (P1 & P2). rewrite P1. apply rng_ellipse; auto; lra.
Qed.
Print Assumptions C63_mcc_mui.
(** mu(I) Drucker-Prager: the stored viscosity. *)
Theorem C63_dp_mui_viscosity : forall G, two_or_three G -> forall svd uabs p dt F tau h o, updated svd uabs p dt F tau h o -> plastic_model p = DPMui ->
  let S := trial_stress svd p F in let shifted := pressure S + vol_shift p h in let tip := - q_cohesion p / mu_1 p in let m := h_muI (o_h o) in
  let yields := tip < shifted /\ mu_1 p * shifted + q_cohesion p + stress_tolerance p < shear (q_prefac p) S in
  (yields -> 0 < h_dg (o_h o) /\ h_visc (o_h o) = (m - mu_1 p) * (shifted - tip + stress_tolerance p) / h_dg (o_h o)) /\
  (~ yields -> m = mu_1 p /\ h_visc (o_h o) = 0).
Proof.
  intros G HG svd uabs p dt F tau h o H Pm S shifted tip m yields. pose proof H as (_ & _ & Sa0 & _). pose proof (facQ_pos p Sa0) as HQ. setup G HG H. subst S shifted tip m yields. rewrite EP, EQ, Hh.
  unfold return_map in Hr. rewrite Pm in Hr. apply Ok_inj in Hr. destruct Sa. destruct (dpm_res p El dt (trial s) T h Hdt sa_mu1 sa_mu2 HQ sa_tol r (eq_sym Hr)) as (K1 & K2 & K3). fold (sh p h). unfold tipm, my in *. split.
  - intros (L1 & L2). destruct (K3 L1 L2) as (g & Hg & _ & _ & _ & _ & Dg & _ & _ & _ & _ & _ & V1). rewrite Dg. auto.
  - intros N. destruct (Rlt_le_dec (P p (trial s) + sh p h) (- q_cohesion p / mu_1 p)) as [L|L]; [destruct (K1 L) as (_ & _ & _ & _ & A & B & _); auto|].
    assert (X : - q_cohesion p / mu_1 p = P p (trial s) + sh p h \/ Q p (trial s) <= mu_1 p * (P p (trial s) + sh p h) + q_cohesion p + stress_tolerance p).
    { destruct L as [L|L]; auto. right. apply Rnot_lt_le. intros X. apply N. auto. }
    destruct (K2 L X) as (_ & _ & _ & _ & _ & _ & A & B & _). auto.
Qed.
Print Assumptions C63_dp_mui_viscosity.

(** Whole simulations with material friction: every particle state that is written carries the
    static friction of the material at the start and stays in the material's range. *)
Theorem C63_simulation_partial : forall G, two_or_three G -> forall svd uabs fuel af p init sch s0 n st s1 ev, admissible_material svd p ->
  use_mibf p = true -> 0 < stress_tolerance p -> (match plastic_model p with MCC | MCCVisc | MCCMui => explicit_hardening p | _ => True end) ->
  (forall k, valid_sched (sch k)) -> well_formed s0 n -> simulate svd uabs fuel af p init sch s0 = Ok (st, s1, ev) ->
  (forall s, In (EvParticles s) ev -> Forall (fun h => friction_range p (h_muI h)) (p_hist (s_p s))) /\
  (forall s ev', save_sim p = true -> ev = EvInfo :: EvParticles s :: ev' -> Forall (fun h => h_muI h = static_friction p) (p_hist (s_p s))).
Proof.
  intros G HG svd uabs fuel af p init sch s0 n st s1 ev (Sv & El & Sa & Hm) Um Tp Ex V W H. pose proof (geolaws G HG) as GL.
  destruct (sim_cases svd uabs _ _ _ _ _ _ _ _ _ H) as [(_ & -> & ->)|(ev1 & L & ->)]; [split; [intros s []|intros; discriminate]|].
  set (I0 := fun s : St R => well_formed s n /\ Forall (fun h => friction_range p (h_muI h)) (p_hist (s_p s))).
  assert (St0 : Forall (fun h => h_muI h = static_friction p) (p_hist (s_p (sim_start p s0)))).
  { unfold sim_start, fill_muI. cbn [s_p]. rewrite Um. cbn [p_hist]. apply Forall_forall. intros h Hh. apply in_map_iff in Hh. destruct Hh as (h1 & <- & _). reflexivity. }
  assert (B0' : I0 (sim_start p s0)).
  { split; [now apply wf_start|]. eapply Forall_impl; [|exact St0]. intros h E. cbv beta in *. rewrite E. destruct Sa. unfold friction_range, static_friction. destruct (plastic_model p); try lra; auto. }
  assert (B1 : forall k s s', I0 s -> advanceStep svd uabs af p (sch k) s = Ok s' -> I0 s').
  { intros k s s' (Ws & Fs) E. pose proof (C51_step_keeps_arrays G svd uabs af p (sch k) s s' n (V k) Ws E) as Ws'. split; [exact Ws'|].
    apply Forall_forall. intros h1 Hin. apply In_nth_error in Hin. destruct Hin as (i & Hi).
    assert (Li : (i < n)%nat).
    { assert (X : (i < length (p_hist (s_p s')))%nat) by (apply nth_error_Some; congruence). destruct Ws' as (C & _). destruct C. lia. }
    destruct (wf_at G s n i Ws Li) as (x & F & t & h & Hx & HP).
    destruct (step_particle G HG svd uabs af p (sch k) s s' n i x F t h (V k) Ws E Hx HP) as (L0 & o & _ & Ho & HP1).
    pose proof (step_dt_pos G HG svd uabs af p (sch k) s s' Hm E) as Hdt.
    destruct HP1 as (_ & _ & Hh1). assert (h1 = o_h o) by congruence. subst h1.
    destruct HP as (_ & _ & Hh). rewrite Forall_forall in Fs. specialize (Fs h (nth_error_In _ _ Hh)). cbv beta in Fs.
    apply plast_inv in Ho. destruct Ho as (U & sg & Vv & r & Es & Hr & _ & _ & Eh & _). rewrite Eh.
    destruct (trial_pq svd p El Sv _ _ _ _ Es) as (T & _).
    eapply (range_step uabs p El (s_dt s') (trial sg) T); [exact Hdt|exact Sa|exact Um|exact Tp|exact Ex|exact Hr|]. destruct (use_musl p); exact Fs. }
  assert (B2 : forall s, I0 s -> I0 (tick p s)) by (intros s (Ws & Fs); split; [now apply wf_tick|rewrite tick_p; exact Fs]).
  destruct (loop_inv svd uabs I0 af p sch B1 B2 _ _ _ _ _ _ B0' L) as (_ & Fo).
  rewrite Forall_forall in Fo. split.
  - intros s He. apply in_app_or in He. destruct He as [He|He].
    + destruct (save_sim p); [|destruct He]. destruct He as [He|[He|[]]]; [discriminate|]. assert (s = sim_start p s0) by congruence. subst s. apply B0'.
    + apply in_app_or in He. destruct He as [He|He]; [apply Fo in He; apply He|]. destruct st; try destruct He. destruct (save_sim p); [|destruct He]. destruct He as [He|[]]. discriminate.
  - intros s ev' Ss E. rewrite Ss in E. cbn in E. assert (s = sim_start p s0) by congruence. now subst s.
Qed.
Print Assumptions C63_simulation_partial.

(** The friction reported under tension can be negative: with cohesion, at negative pressure. *)
Theorem C63_negative_friction_refuted : exists (p : @Par R (Geo2 R)) F o, updated svdx Rabs p 1 F mzero h0 o /\ plastic_model p = DPVisc /\ use_mibf p = true /\
  0 < Mfric p /\ h_muI (o_h o) < 0.
Proof.
  set (p := pl_par DPVisc NoHard (1/10) 100 0 1 false true). set (F := stretch 1 (-95/100)).
  destruct (pl_updated Rabs DPVisc NoHard (1/10) 100 0 1 false true 1 (-95/100) h0) as (o & H); try lra; [fin|]. fold p F in H. exists p, F, o. split; [exact H|].
  split; [reflexivity|]. split; [reflexivity|]. split; [cbn; lra|].
  destruct (stretch_q DPVisc NoHard (1/10) 100 0 1 false true 1 (-95/100)) as (A & B); try lra. fold p F in A, B.
  assert (V0 : vol_shift p h0 = 0) by (unfold vol_shift; cbn; lra).
  destruct (C63_viscous_drucker_prager _ (or_introl eq_refl) svdx Rabs p 1 F mzero h0 o H eq_refl) as (_ & _ & K). cbv zeta in K. rewrite A, V0 in K.
  change (Mfric p) with (1/10) in K. change (q_cohesion p) with 100 in K. destruct (K eq_refl ltac:(lra) ltac:(lra)) as (_ & K1 & _). clear K.
  specialize (K1 ltac:(rewrite Rabs_left; lra)).
  destruct (C38_viscous_drucker_prager _ (or_introl eq_refl) svdx Rabs p 1 F mzero h0 o H eq_refl) as (_ & J). cbv zeta in J. rewrite A, V0 in J.
  change (Mfric p) with (1/10) in J. change (q_cohesion p) with 100 in J. destruct (J ltac:(lra) ltac:(lra)) as (g & q' & Vr & J1 & _). clear J.
  destruct (J1 eq_refl) as (_ & Fl & _). clear J1. unfold flow_rule in Fl. change (use_dl p) with false in Fl. cbv iota in Fl. unfold flow_residual_perzyna in Fl.
  change (visc_exponent p) with 1 in Fl. change (visc_time p) with 1 in Fl. destruct Vr as (G0 & Eq & _ & _ & Ed & _).
  rewrite Rpower_1 in Fl by lra. unfold relaxed_shear in K1. rewrite Ed in K1. assert (Em : mu p = 5000/13) by (unfold p; apply pl_mu). rewrite Em in *. change (q_prefac p) with 1 in *. unfold Rsqr in Eq.
  set (qq := shear 1 (trial_stress svdx p F)) in *.
  assert (E1 : q' = (1/10 * (- (12500/13) * (1 + -95/100) + 0) + 100) * (1 + 1 * g)).
  { apply (Rmult_eq_reg_r (/ (1 + 1 * g))); [|apply Rinv_neq_0_compat; lra]. rewrite Rmult_assoc, Rinv_r by lra. unfold Rdiv in *. lra. }
  assert (100 < q') by lra. lra.
Qed.
Print Assumptions C63_negative_friction_refuted.

(** ** Concrete cases *)
(** A von Mises particle that yields (C62), and a Cam-Clay one with material friction (C63). *)
Example C62_ex : forall uabs, let p := pl_par VM NoHard 1 0 0 1 false false in exists o, updated svdx uabs p 1 (stretch 1 0) mzero h0 o /\ h_dev (o_h o) <> h_dev h0 /\ plastic_model p <> DPMui.
Proof.
  intros uabs p. destruct (C35_ex uabs) as (o & H & L & E). exists o. split; [exact H|]. split; [|discriminate].
  destruct (C35_von_mises _ (or_introl eq_refl) svdx uabs p 1 _ _ _ o H eq_refl) as (_ & _ & D & _). change (pl_par VM NoHard 1 0 0 1 false false) with p in H, D, L, E. rewrite D, E.
  change (q_max p) with 100 in L. assert (Em : mu p = 5000/13) by (unfold p; apply pl_mu). rewrite Em. change (q_prefac p) with 1 in L, D, E |- *.
  assert (0 < (shear 1 (trial_stress svdx p (stretch 1 0)) - 100) / (2 * 1 * (5000/13))) by (apply Rdiv_lt_0_compat; lra). lra.
Qed.
Example C63_cam_clay_ex : forall uabs, let p := pl_par MCC ExpoExpl 1 0 0 1 false true in exists o, updated svdx uabs p 1 (stretch 1 0) mzero h0 o /\ use_mibf p = true /\ explicit_hardening p /\ 0 < stress_tolerance p /\
  let S := trial_stress svdx p (stretch 1 0) in 0 < cam_clay (Mfric p) (beta p) (preconsolidation p (h_vol h0)) (pressure S) (shear (q_prefac p) S).
Proof.
  intros uabs p. destruct (pl_updated uabs MCC ExpoExpl 1 0 0 1 false true 1 0 h0) as (o & H); try lra; [fin|]. exists o. split; [exact H|].
  split; [reflexivity|]. split; [left; reflexivity|]. split; [cbn; lra|].
  destruct (stretch_q MCC ExpoExpl 1 0 0 1 false true 1 0) as (A & B); try lra. cbv zeta. change (h_vol h0) with 0.
  change (pl_par MCC ExpoExpl 1 0 0 1 false true) with p in A, B. rewrite A.
  assert (Hc : preconsolidation p 0 = 1000).
  { unfold preconsolidation. cbn [hardening_law p pl_par p0 xi stress_tolerance]. rewrite Rmult_0_r, exp_0, Rmax_right; lra. }
  rewrite Hc. unfold cam_clay. change (Mfric p) with 1. change (beta p) with 0. unfold Rsqr. nra.
Qed.
(** mu(I) Cam-Clay, sheared beyond the tension end of the ellipse. *)
Example C63_mcc_mui_ex : forall uabs, let p := clay_law ExpoExpl MCCMui in exists o, updated svdx uabs p 1 (stretch 1 0) mzero h0 o /\ h_dev (o_h o) <> h_dev h0 /\
  0 < pressure (o_tau o) + beta p * current_pc_above p h0 (o_h o) (pressure (o_tau o)) + stress_tolerance p /\ explicit_hardening p.
Proof.
  intros uabs p. destruct (C41_mcc_ex uabs) as (o & H & Y & Y0). cbv zeta in Y. change (clay_law ExpoExpl MCCMui) with p in H, Y, Y0. exists o. split; [exact H|].
  destruct (stretch_q MCCMui ExpoExpl 1 0 0 1 false false 1 0) as (A & B); try lra. change (pl_par MCCMui ExpoExpl 1 0 0 1 false false) with p in A, B.
  assert (Hc : preconsolidation p (h_vol h0) = 1000) by (unfold p; change (h_vol h0) with 0; apply clay_precons).
  pose proof H as H'. pose proof (facQ_pos p (proj1 (proj2 (proj2 H)))) as HQ. setup (Geo2 R) (or_introl (eq_refl (Geo2 R)) : two_or_three (Geo2 R)) H'. rewrite EP, EQ in *. pose proof Sa as SA. destruct SA.
  unfold return_map in Hr. change (plastic_model p) with MCCMui in Hr. cbv iota in Hr.
  destruct (mccmui_mu uabs p El 1 (trial s) h0 Hdt sa_mu2 HQ sa_tol r Hr) as (r0 & c & E & _ & K).
  destruct (mccmui_res uabs p El 1 (trial s) T h0 Hdt r Hr) as (r1 & c1 & E' & _ & K'). assert (r1 = r0) by congruence. subst r1.
  destruct (mcc_rma_spec uabs p 1 El Sa _ _ _ _ _ _ E) as (_ & A2). destruct (A2 Y) as (Pl & X1 & _). specialize (X1 I). rewrite Hc in X1.
  destruct (K' Pl) as (_ & _ & _ & qs & Rs & _). destruct (res_pq p El U _ _ _ _ _ _ _ HU Rs) as (C1 & _). rewrite Htau, C1, Hh.
  assert (Hpc : current_pc_above p h0 (r_h r) (rm_p r0) = 1000) by (unfold current_pc_above; cbn [hardening_law p clay_law pl_par]; exact Hc).
  rewrite Hpc. destruct X1 as ((R1 & R2) & Q0 & Ce). unfold cam_clay in Ce. change (mu_1 p) with (38/100) in Ce. change (beta p) with 0 in *. change (stress_tolerance p) with (1/100000) in *.
  assert (Qm : rm_q r0 <= 190) by (apply Rsqr_incr_0_var; [unfold Rsqr in *; pose proof (Rle_0_sqr (rm_p r0 - 500)) as X; unfold Rsqr in X; clear -Ce X; nra|lra]).
  split; [|split; [lra|left; reflexivity]].
  destruct (K Pl) as (g & Hg & _ & Hd & _); [lra|rewrite Hpc; lra|]. rewrite Hd. change (q_prefac p) with 1. lra.
Qed.
(** A simulation with the mu(I) Drucker-Prager model and material friction. *)
Definition mui_par : @Par R (Geo2 R) :=
  {| spline := Deg2; end_frame := 1; use_pbc := false; change_pos := false; gravity_special := false;
     save_sim := true; save_grid := false; use_mibf := true; use_musl := false;
     grid_ref := vtab (fun _ => 20000000000); gravity0 := e2 0 (-10);
     min_dt := 1/100000000000000; fps := 1000; cfl := 1/2; cfl_elastic := 1/2; flip_ratio := 1;
     rho := 1000; gravity_time := 0; Lx := 1; Ly := 1; Lz := 1;
     particle_mass := 1; particle_volume := 1; dx := 1;
     elastic_model := Hencky; plastic_model := DPMui; hardening_law := ExpoExpl;
     use_pradhana := true; young := 1000; nu := 3/10; stress_tolerance := 1/100000; xi := 0;
     q_max := 100; q_min := 100; p_min := -1000;
     Mfric := 1; q_cohesion := 0; visc_exponent := 1; visc_time := 0; use_dl := false;
     beta := 0; p0 := 1000; rho_s := 2500; grain_diameter := 1/1000; I_ref := 279/1000;
     mu_1 := 38/100; mu_2 := 64/100; q_prefac := 1; objects := [] |}.
Example C63_simulation_ex : forall uabs, let p := mui_par in admissible_material svdx p /\ use_mibf p = true /\ 0 < stress_tolerance p /\ well_formed (ex_state p at_rest) 2 /\
  exists af st s1 ev, simulate svdx uabs 1 af p true (fun _ => rev_sched) (ex_state p at_rest) = Ok (st, s1, ev) /\ exists s ev', ev = EvInfo :: EvParticles s :: ev'.
Proof.
  intros uabs p. split.
  { split; [apply svdx_ok|]. split; [unfold elastic; cbn; lra|]. split; [constructor; cbn; lra|cbn; lra]. }
  split; [reflexivity|]. split; [cbn; lra|]. split; [apply ex_wf|].
  assert (Wf : well_formed (sim_start p (ex_state p at_rest)) 2) by (apply wf_start, ex_wf).
  destruct (C53_first_step_is_safe _ (or_introl eq_refl) svdx uabs p rev_sched (sim_start p (ex_state p at_rest)) 2) as (af & Hs); auto; try (cbn; lra); try lia.
  { apply rev_valid. } { now apply no_obstacles. } { apply C46_material_defined. intros Hg. unfold reads_garbage in Hg. cbn in Hg. intuition discriminate. }
  { intros x k [<-|[<-|[]]] Hk; destruct k as [|[|k]]; cbn in Hk |- *; try lia; unfold Rabs; destruct (Rcase_abs _); lra. }
  { intros k Hk X. cbn in X. lra. }
  destruct (Hs af (le_n _)) as (s1 & E & _). exists af.
  destruct (s_exit s1) eqn:Ex.
  { eexists _, _, _. split.
    - unfold simulate. cbn [negb]. change (model_ok p) with true. change (s_exit (ex_state p at_rest)) with false. cbn [negb]. cbv zeta.
      cbn [sim_loop]. change (s_frame (sim_start p (ex_state p at_rest)) <? end_frame p)%Z with true. cbn [sim_loop]. rewrite E. cbn [bind]. rewrite Ex. cbn [bind]. reflexivity.
    - cbn. eexists _, _. reflexivity. }
  destruct (step_dt_grav svdx uabs af p rev_sched _ s1 E) as (_ & _ & sp' & Em & Ed).
  destruct (step_clock svdx uabs af p rev_sched _ s1 E) as (Et & Ef & _).
  assert (T0 : s_time (sim_start p (ex_state p at_rest)) = 0) by (cbn; lra).
  assert (Sp : sp' = 0).
  { apply max_speed_spec in Em. destruct Em as (_ & (v & Hv & ->) & _). destruct Hv as [<-|[<-|[]]]; unfold vnorm, vsqnorm, vdot; cbn; replace (0 / 1 * (0 / 1) + 0 / 1 * (0 / 1)) with 0 by lra; exact sqrt_0. }
  assert (Dt : s_dt s1 = 1/1000).
  { rewrite Ed, Sp, dt_of_spec. rewrite Rabs_R0. destruct (Rlt_dec _ 0); [lra|].
    rewrite final_R, frame_dt_R. rewrite T0. change (s_frame (sim_start p (ex_state p at_rest)) + 1)%Z with 1%Z.
    cbn [fps p mui_par end_frame min_dt].
    assert (Wv : 1/1000 <= dt_max p).
    { unfold dt_max, wave_speed. numR. cbn [cfl_elastic dx rho young p mui_par]. replace (1000 / 1000) with 1 by lra. rewrite sqrt_1. lra. }
    rewrite Rmin_right by (rewrite Rmin_right; lra). rewrite Rmax_left; lra. }
  assert (Te : at_end p (tick p s1) = true).
  { apply at_end_spec. left. destruct (tick_spec p s1) as (-> & _). rewrite final_R, frame_dt_R, Et, Dt.
    rewrite T0. cbn [fps p mui_par min_dt end_frame]. rewrite Rabs_right; lra. }
  eexists _, _, _. split.
  - unfold simulate. cbn [negb]. change (model_ok p) with true. change (s_exit (ex_state p at_rest)) with false. cbn [negb]. cbv zeta.
    cbn [sim_loop]. change (s_frame (sim_start p (ex_state p at_rest)) <? end_frame p)%Z with true. cbn [sim_loop].
    rewrite E. cbn [bind]. rewrite Ex, Te. cbn [bind]. reflexivity.
  - cbn. eexists _, _. reflexivity.
Qed.
