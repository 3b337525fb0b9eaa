(** * FrictionProofs: plastic shear rate, friction and viscosity stored by the material models. *)
From Coq Require Import Reals ZArith Lra Lia List Bool.
From Verif Require Import Num NumR Tools Lin Types Transfer Rma Plastic Step Spec SpecPlastic SpecFriction LinProofs PlasticProofs PlasticModels RmaProofs PlasticGlue.
Import ListNotations.
Local Open Scope R_scope.

Section Friction.
  Context {G : Geo R} {GL : GeoLaws G}.
  Variable uabs : R -> R.
  Variable p : Par R.
  Hypothesis El : elastic p.
  Variable dt : R.
  Variable t : Tr R.
  Hypothesis T : TrOk t.
  Variable h : Hist R.
  Hypothesis Hdt : 0 < dt.
  Notation P := (P p t).
  Notation Q := (Q p t).
  Notation sh := (sh p h).

  (** The stored rate belongs to the increase of the plastic shear strain. *)
  Definition rate_ok (r : MR R) : Prop := h_dev (r_h r) <> h_dev h -> h_dg (r_h r) = (h_dev (r_h r) - h_dev h) / (q_prefac p * dt).
  Ltac hist := cbn [h_dev h_vol h_prad h_dg h_visc h_muI add_dev add_vol set_prad set_dg set_visc set_muI r_h r_hencky r_upd r_cnt r_exit]; numR.
  Lemma d_prefac_R : d_prefac p = 1 / q_prefac p.
  Proof. unfold d_prefac. rewrite nofZ_R. numR. reflexivity. Qed.
  Lemma fm_R : f_mu_prefac p = q_prefac p * e_mu_prefac p.
  Proof. unfold f_mu_prefac, e_mu_prefac. rewrite !nofZ_R. numR. ring. Qed.
  Lemma rate1 : forall x g, g / dt = (x + #1%num / d_prefac p * g - x) / (q_prefac p * dt).
  Proof. intros. rewrite nofZ_R. numR. rewrite d_prefac_R. destruct El as (_ & _ & Eq). field. lra. Qed.
  Lemma rate2 : forall x e, d_prefac p * e / dt = (x + e - x) / (q_prefac p * dt).
  Proof. intros. rewrite d_prefac_R. destruct El as (_ & _ & Eq). field. lra. Qed.
  Ltac rate := unfold rate_ok; cbn [h_dev h_vol h_prad h_dg h_visc h_muI add_dev add_vol set_prad set_dg set_visc set_muI r_h r_hencky r_upd r_cnt r_exit]; intros Hne; first [apply rate1|apply rate2|exfalso; apply Hne; reflexivity].
  Ltac cases := repeat match goal with
    | |- context [let '(_, _) := ?x in _] => destruct x
    | |- context [if ?b then _ else _] => match b with context [if _ then _ else _] => fail 1 | _ => destruct b eqn:? end end.
  Lemma rate_all : forall r, return_map uabs p dt t h = Ok r -> (plastic_model p = DPMui -> - q_cohesion p / mu_1 p <= P + sh) -> rate_ok r.
  Proof.
    assert (MC : forall r, pl_MCC uabs p dt t h = Ok r -> rate_ok r).
    { intros r H. unfold pl_MCC in H. remember 60%nat as n60 eqn:E60 in H. clear E60. cbv zeta in H.
      destruct (mcc_rma uabs p false _ _ (h_vol h)) as [(r0, pc)|]; [|discriminate]. destruct (rm_plastic r0).
      2: { apply Ok_inj in H; subst r. destruct (use_mibf p); rate. }
      match type of H with (let (_, _) := ?X in _) = _ => destruct X as ((b, qs), ex) end.
      match type of H with (bind ?X _) = _ => set (HH := X) in H end.
      destruct HH as [h2| |] eqn:Eh; cbn [bind] in H; try discriminate. apply Ok_inj in H; subst r. subst HH.
      destruct (use_mibf p); [|apply Ok_inj in Eh; subst h2; rate].
      match type of Eh with (bind ?X _) = _ => destruct X as [c| |] end; cbn [bind] in Eh; try discriminate.
      match type of Eh with (if ?c then _ else _) = _ => destruct c end; [apply Ok_inj in Eh; subst h2; rate|].
      destruct (use_dl p); apply Ok_inj in Eh; subst h2; rate. }
    intros r Hr Tp. unfold return_map in Hr. destruct (plastic_model p) eqn:Pm.
    - apply Ok_inj in Hr. subst r. rate.
    - apply Ok_inj in Hr. subst r. unfold pl_VM. cbv zeta. cases; rate.
    - apply Ok_inj in Hr. subst r. unfold pl_DP. cbv zeta. cases; rate.
    - apply Ok_inj in Hr. subst r. unfold pl_DPSoft. cbv zeta. cases; rate.
    - auto.
    - apply Ok_inj in Hr. subst r. unfold pl_VMVisc. remember 60%nat as n60 eqn:E60. clear E60. cbv zeta. cases; rate.
    - apply Ok_inj in Hr. subst r. unfold pl_DPVisc. remember 60%nat as n60 eqn:E60. clear E60. cbv zeta. cases; rate.
    - auto.
    - apply Ok_inj in Hr. subst r. unfold pl_DPMui. cbv zeta.
      match goal with |- rate_ok (if ?b then _ else _) => destruct b eqn:Eb end; [|cases; rate].
      exfalso. specialize (Tp eq_refl). revert Eb. numR. rewrite Rltb_true. unfold PlasticModels.P, PlasticModels.sh, vol_shift in Tp. destruct (use_pradhana p); [lra|]. rewrite nofZ_R. lra.
    - unfold pl_MCCMui in Hr. cbv zeta in Hr. destruct (mcc_rma uabs p true _ _ (h_vol h)) as [(r0, pc)|]; [|discriminate]. destruct (rm_plastic r0).
      2: { apply Ok_inj in Hr; subst r. rate. }
      match type of Hr with (let (_, _) := ?X in _) = _ => destruct X as (qf, h2) eqn:V end. apply Ok_inj in Hr. subst r.
      match type of V with (if ?b then _ else _) = _ => destruct b end; apply pair_equal_spec in V; destruct V as (_ & <-); rate.
  Qed.

  (** ** Friction and viscosity *)
  Lemma dpv_mu : 0 < Mfric p -> forall r, r = pl_DPVisc p dt t h ->
    (use_mibf p = false -> h_muI (r_h r) = h_muI h) /\
    (use_mibf p = true -> P + sh <= - q_cohesion p / Mfric p \/ Q <= Mfric p * (P + sh) + q_cohesion p -> h_muI (r_h r) = Mfric p) /\
    (use_mibf p = true -> - q_cohesion p / Mfric p < P + sh -> Mfric p * (P + sh) + q_cohesion p < Q ->
       h_muI (r_h r) = if Rlt_dec (Rabs (P + sh)) (1/10000000000) then 10000000000 else (Q - e_mu_prefac p * (h_dev (r_h r) - h_dev h) - q_cohesion p) / (P + sh)).
  Proof.
    intros HM r Hr. assert (Hs : (if use_pradhana p then - bulkK p * h_prad h else 0) = sh) by reflexivity.
    unfold pl_DPVisc in Hr. remember 60%nat as n60 eqn:E60 in Hr. clear E60. rewrite ?nofZ_R in Hr; numR; rewrite ?(dpre_inv p El) in Hr. change (- bulkK p * t_tr t) with P in Hr. change (e_mu_prefac p * t_n t) with Q in Hr. rewrite Hs in Hr. cbv zeta in Hr.
    destruct (Rltb_spec (P + sh) (- q_cohesion p / Mfric p)) as [L|L].
    { subst r. cbn [r_h]. repeat split; intros; try lra; destruct (use_pradhana p), (use_mibf p); try discriminate; reflexivity. }
    destruct (Rltb_spec (- q_cohesion p / Mfric p) (P + sh)) as [L1|L1]; cbn [andb] in Hr.
    2: { subst r. cbn [r_h]. repeat split; intros; try lra; destruct (use_pradhana p), (use_mibf p); try discriminate; reflexivity. }
    destruct (Rltb_spec (Mfric p * (P + sh) + q_cohesion p) Q) as [L2|L2].
    2: { subst r. cbn [r_h]. repeat split; intros; try lra; destruct (use_pradhana p), (use_mibf p); try discriminate; reflexivity. }
    match type of Hr with context [let (_, _) := ?X in _] => destruct X as (dg, ex) end. subst r. cbn [r_h].
    split; [intros E; rewrite E; destruct (use_pradhana p); reflexivity|]. split; [intros E [X|X]; lra|]. intros E _ _. rewrite E. hist.
    replace (h_dev (if use_pradhana p then set_prad (set_muI h (Mfric p)) 0 else set_muI h (Mfric p))) with (h_dev h) by (destruct (use_pradhana p); reflexivity).
    destruct (Rltb_spec (Rabs (P + sh)) e10) as [A|A], (Rlt_dec (Rabs (P + sh)) (1/10000000000)) as [B|B]; try reflexivity;
      try (exfalso; unfold e10 in A; numR; lra).
    rewrite fm_R. unfold Rdiv. ring.
  Qed.

  Lemma mcc_pc : forall mui a b ev r0 c, mcc_rma uabs p mui a b ev = Some (r0, c) ->
    c = match hardening_law p with ExpoExpl | SinhExpl => Some (preconsolidation p ev) | _ => None end.
  Proof.
    intros mui a b ev r0 c H. unfold mcc_rma in H. unfold preconsolidation. destruct (hardening_law p); try (destruct mui; [discriminate|]);
      apply some_pair in H; destruct H as (_ & <-); rewrite ?cmax_R; unfold pc_expo, pc_sinh; numR; reflexivity.
  Qed.
  Lemma mcc_mu : 0 <= visc_time p -> (hardening_law p = NoHard -> use_mibf p = false) -> forall r, pl_MCC uabs p dt t h = Ok r -> exists r0 pc, mcc_rma uabs p false P Q (h_vol h) = Some (r0, pc) /\
    (use_mibf p = false -> h_muI (r_h r) = h_muI h) /\
    (use_mibf p = true -> rm_plastic r0 = false -> h_muI (r_h r) = Mfric p) /\
    (use_mibf p = true -> rm_plastic r0 = true -> exists qs,
       let c := current_pc p h (r_h r) in
       qs = Q - e_mu_prefac p * (h_dev (r_h r) - h_dev h) / dl_weight p dt /\ rm_p r0 = P + bulkK p * (h_vol (r_h r) - h_vol h) / dl_weight p dt /\
       (plastic_model p <> MCCVisc \/ use_dl p = true -> qs = rm_q r0) /\ rm_q r0 <= qs /\
       (rm_p r0 < - beta p * c + stress_tolerance p \/ c - stress_tolerance p < rm_p r0 -> h_muI (r_h r) = Mfric p) /\
       (- beta p * c + stress_tolerance p <= rm_p r0 <= c - stress_tolerance p -> h_muI (r_h r) = qs / sqrt ((rm_p r0 + beta p * c) * (c - rm_p r0)))).
  Proof.
    intros HV NH r H. unfold pl_MCC in H. remember 60%nat as n60 eqn:E60 in H. clear E60.
    change (nmul (nopp (bulkK p)) (t_tr t)) with P in H. change (nmul (e_mu_prefac p) (t_n t)) with Q in H. cbv zeta in H.
    destruct (mcc_rma uabs p false P Q (h_vol h)) as [(r0, pc)|] eqn:Er; [|discriminate]. exists r0, pc. split; auto.
    apply mcc_pc in Er.
    destruct (rm_plastic r0) eqn:Pl.
    2: { apply Ok_inj in H; subst r. cbn [r_h]. repeat split; intros E; rewrite E; try discriminate; reflexivity. }
    match type of H with (let (_, _) := ?X in _) = _ => destruct X as ((b, qs), ex) eqn:V end.
    match type of H with (bind ?X _) = _ => set (HH := X) in H end.
    destruct HH as [h2| |] eqn:Eh; cbn [bind] in H; try discriminate. apply Ok_inj in H; subst r. subst HH. cbn [r_h].
    destruct (use_mibf p) eqn:Um; [|apply Ok_inj in Eh; subst h2; repeat split; intros; try discriminate; reflexivity].
    split; [discriminate|]. split; [discriminate|]. intros _ _. exists qs. cbv zeta.
    pose proof (K_pos p El) as HK. pose proof (emu_pos p El) as He.
    assert (Hb : b = dl_weight p dt /\ 0 < b /\ (plastic_model p <> MCCVisc \/ use_dl p = true -> qs = rm_q r0) /\ rm_q r0 <= qs /\ (use_dl p = false -> b = 1)).
    { assert (W : 0 < 1 + visc_time p / dt) by (assert (0 <= visc_time p / dt) by (apply Rmult_le_pos; auto; apply Rlt_le, Rinv_0_lt_compat; auto); lra).
      unfold dl_weight. destruct (plastic_model p) eqn:Pm; try (inj3 V; rewrite ?nofZ_R; repeat split; auto; lra).
      destruct (use_dl p) eqn:Ud.
      - inj3 V. rewrite !nofZ_R. numR. repeat split; auto; try discriminate; try lra. apply Rdiv_lt_0_compat; lra.
      - match type of V with (let (_, _) := ?X in _) = _ => destruct X as (dg, ex1) end. inj3 V. rewrite nofZ_R, cmax_R. repeat split; try lra.
        + intros [X|X]; congruence.
        + apply Rmax_l. }
    destruct Hb as (<- & B0 & B1 & B2 & B3). clear V.
    match type of Eh with (bind ?X _) = _ => destruct X as [c| |] eqn:Ec end; cbn [bind] in Eh; try discriminate.
    set (hn := h_vol h + - b * (P - rm_p r0) / bulkK p).
    assert (Hc : forall h', h_vol h' = hn -> c = current_pc p h h').
    { intros h' Eh'. unfold current_pc. rewrite Eh'. rewrite Er in Ec. destruct (hardening_law p); try (apply Ok_inj in Ec; rewrite <- Ec); try (specialize (NH eq_refl); discriminate); auto;
        rewrite ?cmax_R, ?nofZ_R; unfold pc_expo, pc_sinh; cbn [h_vol set_dg add_dev add_vol]; numR; reflexivity. }
    assert (Hh : h_dev h2 = h_dev h + b * (Q - qs) / e_mu_prefac p /\ h_vol h2 = hn /\
       (rm_p r0 < - beta p * c + stress_tolerance p \/ c - stress_tolerance p < rm_p r0 -> h_muI h2 = Mfric p) /\
       (- beta p * c + stress_tolerance p <= rm_p r0 <= c - stress_tolerance p -> h_muI h2 = qs / sqrt ((rm_p r0 + beta p * c) * (c - rm_p r0)))).
    { numR. destruct (Rltb_spec (rm_p r0) (- beta p * c + stress_tolerance p)) as [L|L]; cbn [orb] in Eh.
      { apply Ok_inj in Eh. subst h2. repeat split; intros; try lra; reflexivity. }
      destruct (Rltb_spec (c - stress_tolerance p) (rm_p r0)) as [L1|L1].
      { apply Ok_inj in Eh. subst h2. repeat split; intros; try lra; reflexivity. }
      destruct (use_dl p); apply Ok_inj in Eh; subst h2; repeat split; intros; try lra; try reflexivity; cbn [h_muI set_muI].
      f_equal. rewrite nofZ_R. field. lra. }
    destruct Hh as (E1 & E2 & E3 & E4). rewrite <- (Hc h2 E2), E1, E2. repeat split; auto; unfold hn; field; lra.
  Qed.

  Lemma mccmui_mu : mu_1 p <= mu_2 p -> 0 < fac_Q p -> 0 <= stress_tolerance p -> forall r, pl_MCCMui uabs p dt t h = Ok r -> exists r0 pc, mcc_rma uabs p true P Q (h_vol h) = Some (r0, pc) /\
    (rm_plastic r0 = false \/ Q <= rm_q r0 + stress_tolerance p -> h_muI (r_h r) = mu_1 p /\ h_visc (r_h r) = 0 /\ h_dev (r_h r) = h_dev h) /\
    (rm_plastic r0 = true -> rm_q r0 + stress_tolerance p < Q ->
       let ps := rm_p r0 in let c := current_pc_above p h (r_h r) ps in let sp := ps + beta p * c + stress_tolerance p in
       0 < sp -> exists g, 0 < g /\ h_dg (r_h r) = g /\ h_dev (r_h r) = h_dev h + q_prefac p * (g * dt) /\
         mu_1 p <= h_muI (r_h r) <= mu_2 p /\
         h_muI (r_h r) = mu_1 p + (mu_2 p - mu_1 p) / (fac_Q p * sqrt sp / g + 1) /\
         Q - f_mu_prefac p * (g * dt) = rm_q r0 + (h_muI (r_h r) - mu_1 p) * sqrt ((c - ps) * sp) /\
         h_visc (r_h r) = (h_muI (r_h r) - mu_1 p) * sqrt ((c - ps) * sp) / g).
  Proof.
    intros HMM HQ Ht r H. unfold pl_MCCMui in H.
    change (nmul (nopp (bulkK p)) (t_tr t)) with P in H. change (nmul (e_mu_prefac p) (t_n t)) with Q in H. cbv zeta in H.
    destruct (mcc_rma uabs p true P Q (h_vol h)) as [(r0, pc)|] eqn:Er; [|discriminate]. exists r0, pc. split; auto.
    pose proof (mcc_pc _ _ _ _ _ _ Er) as Pc.
    destruct (rm_plastic r0) eqn:Pl.
    2: { apply Ok_inj in H; subst r. cbn [r_h]. split; [|discriminate]. intros _. repeat split. cbn. apply nofZ_R. }
    match type of H with (let (_, _) := ?X in _) = _ => destruct X as (qs, h2) eqn:V end.
    apply Ok_inj in H; subst r. cbn [r_h].
    pose proof (K_pos p El) as HK. pose proof (emu_pos p El) as He. pose proof (fmu_pos p El) as Hf. pose proof dim_R_pos as Hdim.
    numR. destruct (Rltb_spec (rm_q r0 + stress_tolerance p) Q) as [L|L].
    2: { apply pair_equal_spec in V; destruct V as (_ & <-). split; [|intros; lra]. intros _. repeat split. cbn. apply nofZ_R. }
    split; [intros [X|X]; [discriminate|lra]|]. intros _ _.
    set (ps := rm_p r0) in *.
    set (hv := h_vol (add_vol (set_visc (set_muI h (mu_1 p)) (#0)%num) (t_tr t + dimA * (ps / (bulkK p * dimA))))) in *.
    match type of V with context [match hardening_law p with NoHard => ?a1 | ExpoExpl => ?a2 | ExpoImpl => ?a3 | SinhExpl => ?a4 | SinhImpl => ?a5 end] =>
      set (c := match hardening_law p with NoHard => a1 | ExpoExpl => a2 | ExpoImpl => a3 | SinhExpl => a4 | SinhImpl => a5 end) in V end.
    assert (Hc : forall h', h_vol h' = hv -> c = current_pc_above p h h' ps).
    { intros h' Eh'. unfold c, current_pc_above. rewrite Eh', Pc. unfold mcc_rma in Er. destruct (hardening_law p); try discriminate; auto; rewrite cmax_R; unfold pc_expo, pc_sinh; numR; reflexivity. }
    clearbody c. set (sp := ps + beta p * c + stress_tolerance p) in *.
    set (g := quad_root _ _ _) in V. rewrite cmax_R in V. inj2 V.
    cbv zeta. match goal with |- context [current_pc_above p h ?hh ps] => rewrite <- (Hc hh eq_refl) end. fold sp. intros Hsp.
    pose proof (sqrt_lt_R0 sp Hsp) as Ssp. set (s := fac_Q p * sqrt sp) in *. assert (Hs0 : 0 < s) by (unfold s; rpos).
    set (w := sqrt ((c - ps) * sp)) in *. assert (W : 0 <= w) by apply sqrt_pos.
    destruct (quad_root_spec (f_mu_prefac p * dt) (w * (mu_2 p - mu_1 p) + f_mu_prefac p * dt * fac_Q p * sqrt sp - (Q - rm_q r0)) (- (Q - rm_q r0) * fac_Q p * sqrt sp)) as (_ & Root & Pos).
    { rpos. } { assert (0 < (Q - rm_q r0) * s) by (apply Rmult_lt_0_compat; lra). unfold s in *. lra. }
    fold g in Root, Pos. assert (Hg : 0 < g). { apply Pos. assert (0 < (Q - rm_q r0) * s) by (apply Rmult_lt_0_compat; lra). unfold s in *. lra. }
    clearbody g. exists g. split; auto.
    set (mui := mu_1 p + (mu_2 p - mu_1 p) / (s / g + 1)).
    assert (Hsg : 0 < s / g) by (apply Rdiv_lt_0_compat; lra).
    assert (Frac : 0 < / (s / g + 1) < 1).
    { split; [apply Rinv_0_lt_compat; lra|]. rewrite <- Rinv_1. apply Rinv_lt_contravar; lra. }
    assert (Mb : mu_1 p <= mui <= mu_2 p) by (unfold mui, Rdiv; nra).
    assert (Eq : Q - f_mu_prefac p * (g * dt) = rm_q r0 + (mui - mu_1 p) * w).
    { assert (E : (g + s) * (f_mu_prefac p * dt * g - (Q - rm_q r0)) + w * (mu_2 p - mu_1 p) * g = 0) by (unfold s; unfold Rsqr in Root; lra).
      unfold mui. replace (mu_1 p + (mu_2 p - mu_1 p) / (s / g + 1) - mu_1 p) with ((mu_2 p - mu_1 p) * g / (g + s)) by (field; lra).
      apply (Rmult_eq_reg_r (g + s)); [|lra]. replace ((rm_q r0 + (mu_2 p - mu_1 p) * g / (g + s) * w) * (g + s)) with (rm_q r0 * (g + s) + (mu_2 p - mu_1 p) * g * w) by (field; lra). lra. }
    assert (Mx : Rmax (rm_q r0) (Q - f_mu_prefac p * dt * g) = Q - f_mu_prefac p * dt * g).
    { apply Rmax_right. assert (0 <= (mui - mu_1 p) * w) by (apply Rmult_le_pos; lra). lra. }
    rewrite Mx, ?nofZ_R. hist. rewrite ?nofZ_R. fold mui. rewrite (dpre_inv p El).
    repeat split; try lra; try (field; lra).
  Qed.

  (** ** The range of the stored friction *)
  Lemma rng_ellipse : forall M be c a q, 0 <= M -> on_ellipse M be c a q -> q = M * sqrt ((c - a) * (be * c + a)).
  Proof.
    intros M be c a q HM ((A1 & A2) & Hq & E). unfold cam_clay in E. assert (0 <= (c - a) * (be * c + a)) by (apply Rmult_le_pos; lra).
    apply Rsqr_inj; auto; [apply Rmult_le_pos; auto; apply sqrt_pos|]. rewrite Rsqr_mult, Rsqr_sqrt by auto. unfold Rsqr in *. lra.
  Qed.
  Lemma other_mu : forall r, return_map uabs p dt t h = Ok r -> match plastic_model p with NoPlasticity | VM | DP | DPSoft | VMVisc => h_muI (r_h r) = h_muI h | _ => True end.
  Proof.
    intros r Hr. unfold return_map in Hr. destruct (plastic_model p) eqn:Pm; auto; apply Ok_inj in Hr; subst r; try reflexivity.
    - unfold pl_VM. cbv zeta. cases; reflexivity.
    - unfold pl_DP. cbv zeta. cases; reflexivity.
    - unfold pl_DPSoft. cbv zeta. cases; reflexivity.
    - unfold pl_VMVisc. remember 60%nat as n60 eqn:E60. clear E60. cbv zeta. cases; reflexivity.
  Qed.
  Lemma range_step : sane p -> use_mibf p = true -> 0 < stress_tolerance p -> (match plastic_model p with MCC | MCCVisc | MCCMui => explicit_hardening p | _ => True end) ->
    forall r, return_map uabs p dt t h = Ok r -> friction_range p (h_muI h) -> friction_range p (h_muI (r_h r)).
  Proof.
    intros Sa Um Tp Ex r Hr Hm. pose proof (other_mu r Hr) as O. pose proof (facQ_pos p Sa) as HQ.
    assert (Cl : plastic_model p = MCC \/ plastic_model p = MCCVisc -> pl_MCC uabs p dt t h = Ok r -> explicit_hardening p -> Mfric p <= h_muI (r_h r) /\ (plastic_model p = MCC -> h_muI (r_h r) = Mfric p)).
    { clear Ex Hr O. intros Pm H Ex. destruct Sa.
      destruct (mcc_mu sa_visc) with (r := r) as (r0 & pc & E & _ & K1 & K2); auto; [destruct Ex; congruence|].
      destruct (mcc_rma_spec uabs p dt El ltac:(constructor; auto) _ _ _ _ _ _ E) as (A1 & A2).
      destruct (rm_plastic r0) eqn:Pl; [|rewrite (K1 Um eq_refl); lra].
      destruct (K2 Um eq_refl) as (qs & _ & _ & E1 & E2 & E3 & E4). clear K1 K2. set (c := current_pc p h (r_h r)) in *.
      destruct (Rle_lt_dec (cam_clay (Mfric p) (beta p) (preconsolidation p (h_vol h)) P Q) 0) as [L|L]; [destruct (A1 L); congruence|].
      destruct (A2 L) as (_ & B1 & _). assert (X : explicit_law p) by (unfold explicit_law; destruct Ex as [-> | ->]; exact I). specialize (B1 X).
      assert (Hc : c = preconsolidation p (h_vol h)) by (unfold c, current_pc; destruct Ex as [-> | ->]; reflexivity). rewrite <- Hc in B1.
      apply rng_ellipse in B1; [|lra].
      destruct (Rlt_le_dec (rm_p r0) (- beta p * c + stress_tolerance p)) as [L1|L1]; [rewrite E3; auto; lra|].
      destruct (Rlt_le_dec (c - stress_tolerance p) (rm_p r0)) as [L2|L2]; [rewrite E3; auto; lra|].
      rewrite E4 by lra. set (w := sqrt ((rm_p r0 + beta p * c) * (c - rm_p r0))) in *.
      assert (W : 0 < w) by (apply sqrt_lt_R0, Rmult_lt_0_compat; lra).
      assert (Hq : rm_q r0 = Mfric p * w) by (rewrite B1; unfold w; f_equal; f_equal; ring). split.
      - apply (Rmult_le_reg_r w); auto. replace (qs / w * w) with qs by (field; lra). lra.
      - intros Pc. rewrite E1, Hq by (left; congruence). field. lra. }
    unfold friction_range in *. unfold return_map in Hr. destruct (plastic_model p) eqn:Pm; try (rewrite O; exact Hm).
    - apply Cl; auto.
    - apply Ok_inj in Hr. intros C0 N1 M0. destruct Sa. destruct (dpv_mu sa_M r (eq_sym Hr)) as (_ & K1 & K2).
      destruct (dpv_res p El dt t T h Hdt sa_visc sa_M r (eq_sym Hr)) as (_ & _ & _ & K3). unfold tipd, dy in K3.
      destruct (Rle_lt_dec (P + sh) (- q_cohesion p / Mfric p)) as [L|L]; [rewrite K1; auto; lra|].
      destruct (Rle_lt_dec Q (Mfric p * (P + sh) + q_cohesion p)) as [L1|L1]; [rewrite K1; auto; lra|].
      rewrite K2 by auto. destruct (Rlt_dec (Rabs (P + sh)) (1/10000000000)) as [B|B]; [lra|].
      destruct (K3 L L1) as (g & Hg & Rs & _ & _ & _ & F & _). destruct (F N1) as (_ & _ & F1 & _). clear F K1 K2 K3.
      rewrite (rs_dev _ _ _ _ _ _ _ _ Rs). rewrite C0 in *. replace (- 0 / Mfric p) with 0 in L by (field; lra).
      apply (Rmult_le_reg_r (P + sh)); auto.
      replace ((Q - e_mu_prefac p * (h_dev h + q_prefac p * (g * dt) - h_dev h) - 0) / (P + sh) * (P + sh)) with (Q - q_prefac p * e_mu_prefac p * (g * dt)) by (field; lra).
      rewrite <- fm_R. lra.
    - apply Cl; auto.
    - apply Ok_inj in Hr. destruct Sa. destruct (dpm_res p El dt t T h Hdt sa_mu1 sa_mu2 HQ sa_tol r (eq_sym Hr)) as (K1 & K2 & K3). unfold tipm, my in *.
      destruct (Rlt_le_dec (P + sh) (- q_cohesion p / mu_1 p)) as [L|L]; [destruct (K1 L) as (_ & _ & _ & _ & -> & _); lra|].
      destruct (Rle_lt_dec Q (mu_1 p * (P + sh) + q_cohesion p + stress_tolerance p)) as [L1|L1]; [destruct (K2 L (or_intror L1)) as (_ & _ & _ & _ & _ & _ & -> & _); lra|].
      destruct L as [L|L]; [|destruct (K2 ltac:(lra) (or_introl L)) as (_ & _ & _ & _ & _ & _ & -> & _); lra].
      destruct (K3 L L1) as (g & _ & _ & _ & _ & _ & _ & _ & M1 & _). exact M1.
    - destruct Sa. destruct (mccmui_mu sa_mu2 HQ sa_tol r Hr) as (r0 & pc & E & K1 & K2).
      destruct (mcc_rma_spec uabs p dt El ltac:(constructor; auto) _ _ _ _ _ _ E) as (A1 & A2).
      destruct (rm_plastic r0) eqn:Pl; [|destruct K1 as (-> & _); auto; lra].
      destruct (Rle_lt_dec Q (rm_q r0 + stress_tolerance p)) as [L|L]; [destruct K1 as (-> & _); auto; lra|].
      destruct (Rle_lt_dec (cam_clay (mu_1 p) (beta p) (preconsolidation p (h_vol h)) P Q) 0) as [L1|L1]; [destruct (A1 L1); congruence|].
      destruct (A2 L1) as (_ & B1 & _). assert (X : explicit_law p) by (unfold explicit_law; destruct Ex as [-> | ->]; exact I). specialize (B1 X).
      assert (Hc : current_pc_above p h (r_h r) (rm_p r0) = preconsolidation p (h_vol h)) by (unfold current_pc_above; destruct Ex as [-> | ->]; reflexivity).
      destruct (K2 eq_refl L) as (g & _ & _ & _ & M1 & _); auto. rewrite Hc. destruct B1 as ((B1 & _) & _). lra.
  Qed.
End Friction.
