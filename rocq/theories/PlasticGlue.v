(** * PlasticGlue: from the return mappings to Simulation::plasticity. *)
From Coq Require Import Reals ZArith Lra Lia List Bool.
From Verif Require Import Num NumR Tools Lin Types Transfer Rma Plastic Spec SpecPlastic LinProofs PlasticProofs RmaProofs PlasticModels.
Import ListNotations.
Local Open Scope R_scope.

Lemma some_pair : forall X Y (a b : X) (c d : Y), Some (a, c) = Some (b, d) -> a = b /\ c = d.
Proof. intros X Y a b c d H. now injection H. Qed.

Section Glue.
  Context {G : Geo R} {GL : GeoLaws G}.
  Variable svd : TM -> TM * TV * TM.
  Variable uabs : R -> R.
  Variable p : Par R.
  Variable dt : R.

  Lemma plast_inv : forall F tau h o, plasticity svd uabs p dt F tau h = Ok o ->
    exists U s V r, svd F = (U, s, V) /\ return_map uabs p dt (trial s) h = Ok r /\
      o_F o = match r_upd r with Keep => F | Rebuild => rebuild U V (r_hencky r) | Rotation => mmul U (mtr V) end /\
      o_tau o = match elastic_model p with NeoHookean => neo_tau p (o_F o) | Hencky => hencky_tau p U (r_hencky r) end /\
      o_h o = r_h r /\ o_count o = r_cnt r /\ o_exit o = r_exit r.
  Proof.
    intros F tau h o H. unfold plasticity in H. destruct (svd F) as ((U, s), V). destruct (return_map uabs p dt (trial s) h) as [r| |] eqn:E; try discriminate.
    cbn [bind] in H. apply Ok_inj in H. subst o. exists U, s, V, r. cbn. repeat split; auto.
  Qed.

  Hypothesis El : elastic p.
  Hypothesis Sv : svd_ok svd.

  (** The trial stress has the trial pressure and shear stress. *)
  Lemma trial_pq : forall F U s V, svd F = (U, s, V) ->
    TrOk (trial s) /\ pressure (trial_stress svd p F) = P p (trial s) /\ shear (q_prefac p) (trial_stress svd p F) = Q p (trial s) /\
    trial_stress svd p F = hencky_tau p U (t_e (trial s)) /\ orthogonal U.
  Proof.
    intros F U s V E. pose proof (Sv _ _ _ _ E) as [HU HV HF Hs]. destruct (trial_ok s Hs) as (T & Et). split; auto.
    assert (TE : trial_stress svd p F = hencky_tau p U (t_e (trial s))).
    { unfold trial_stress. rewrite E, Et. symmetry. apply hencky_tau_eq. }
    pose proof (mu_pos p El). destruct El as (_ & _ & Hq). repeat split; auto; try apply HU.
    - rewrite TE, stress_pressure, <- (to_tr _ T) by auto. reflexivity.
    - rewrite TE, stress_shear, <- (to_n _ T) by (auto; lra). unfold Q. rewrite emu_R. reflexivity.
  Qed.
  Lemma res_pq : forall U t h r p' q' dd dv, orthogonal U -> Res p t h r p' q' dd dv ->
    pressure (hencky_tau p U (r_hencky r)) = p' /\ shear (q_prefac p) (hencky_tau p U (r_hencky r)) = q'.
  Proof.
    intros U t h r p' q' dd dv HU Rs. pose proof (mu_pos p El). pose proof El as (_ & _ & Hq). split.
    - rewrite stress_pressure by auto. apply (rs_p _ _ _ _ _ _ _ _ Rs).
    - rewrite stress_shear, <- emu_R by (auto; lra). apply (rs_q _ _ _ _ _ _ _ _ Rs).
  Qed.

  (** ** Volume *)
  Lemma vsum_back : forall t dg, TrOk t -> vsum (shear_back p t dg) = t_tr t.
  Proof. intros t dg T. rewrite (back_combo p El), combo_sum by auto. auto. Qed.
  Lemma vsum_iso : forall t pp, TrOk t -> vsum (iso p pp) = - pp / bulkK p.
  Proof. intros t pp T. rewrite (iso_combo p El t), combo_sum by auto. auto. Qed.

  Definition vol_ok (t : Tr R) (h : Hist R) (r : MR R) : Prop :=
    match r_upd r with
    | Keep => r_hencky r = t_e t /\ h_vol (r_h r) = h_vol h
    | Rebuild => h_vol (r_h r) = h_vol h + (t_tr t - vsum (r_hencky r))
    | Rotation => r_hencky r = t_e t /\ h_vol (r_h r) = h_vol h + t_tr t
    end.
  Ltac hist := cbn [h_dev h_vol h_prad h_dg h_visc h_muI add_dev add_vol set_prad set_dg set_visc set_muI r_h r_hencky r_upd r_cnt r_exit]; numR.

  Hypothesis Hdt : 0 < dt.
  Hypothesis Hv : 0 <= visc_time p.
  Lemma return_vol : forall t h r, TrOk t -> return_map uabs p dt t h = Ok r -> vol_ok t h r.
  Proof.
    intros t h r T H. pose proof (K_pos p El) as HK. unfold return_map in H.
    assert (B : forall r dg, r_upd r = Rebuild -> r_hencky r = shear_back p t dg -> h_vol (r_h r) = h_vol h -> vol_ok t h r).
    { intros r1 dg E1 E2 E3. unfold vol_ok. rewrite E1, E2, E3, vsum_back by auto. ring. }
    assert (I : forall r pp, r_upd r = Rebuild -> r_hencky r = iso p pp -> h_vol (r_h r) = h_vol h + (pp - - bulkK p * t_tr t) / bulkK p -> vol_ok t h r).
    { intros r1 pp E1 E2 E3. unfold vol_ok. rewrite E1, E2, E3, (vsum_iso t) by auto. field. lra. }
    assert (N : forall r, r_upd r = Keep -> r_hencky r = t_e t -> h_vol (r_h r) = h_vol h -> vol_ok t h r).
    { intros r1 E1 E2 E3. unfold vol_ok. rewrite E1. auto. }
    destruct (plastic_model p) eqn:Pm.
    - apply Ok_inj in H. subst r. apply N; reflexivity.
    - apply Ok_inj in H. subst r. unfold pl_VM. match goal with |- context [if ?c then _ else _] => destruct c end; [|apply N; reflexivity].
      unfold vol_ok. hist. replace (vsum _) with (t_tr t); [ring|]. symmetry.
      match goal with |- vsum (vsub _ (lscale ?d _)) = _ => replace (vsub (t_e t) (lscale d (t_dir t))) with (combo t (t_n t - d) (t_tr t)); [apply combo_sum; auto|] end.
      rewrite (e_combo t T). unfold combo. apply vext. intros k Hk. autorewrite with geo. ring.
    - apply Ok_inj in H. subst r. unfold pl_DP. cbv zeta. match goal with |- context [if ?c then _ else _] => destruct c end; [eapply I; reflexivity|].
      match goal with |- context [if ?c then _ else _] => destruct c end; [eapply B; reflexivity|apply N; reflexivity].
    - apply Ok_inj in H. subst r. unfold pl_DPSoft. cbv zeta.
      match goal with |- vol_ok _ _ (if ?c then _ else _) => destruct c end; [destruct (use_pradhana p); eapply I; reflexivity|].
      match goal with |- vol_ok _ _ (if ?c then _ else _) => destruct c end; [eapply N; destruct (use_pradhana p); reflexivity|].
      match goal with |- vol_ok _ _ (if ?c then _ else _) => destruct c end; [|apply N; reflexivity].
      match goal with |- vol_ok _ _ (if ?c then _ else _) => destruct c end; [destruct (use_pradhana p); eapply I; reflexivity|].
      destruct (use_pradhana p); eapply B; reflexivity.
    - destruct (mcc_res uabs p El dt t T h Hdt Hv r H) as (r0 & pc & _ & A1 & A2). destruct (rm_plastic r0).
      + destruct (A2 eq_refl) as (U & _ & b & qs & Rs & _). unfold vol_ok. rewrite U, (rs_vol _ _ _ _ _ _ _ _ Rs). pose proof (rs_p _ _ _ _ _ _ _ _ Rs) as E. replace (- b * (P p t - rm_p r0)) with (P p t - b * (P p t - rm_p r0) - P p t) by ring. rewrite <- E. unfold P. field. lra.
      + destruct (A1 eq_refl) as (E1 & U & _ & _ & _ & E2). apply N; auto.
    - apply Ok_inj in H. subst r. unfold pl_VMVisc. remember 60%nat as n60. cbv zeta.
      match goal with |- vol_ok _ _ (if ?c then _ else _) => destruct c end.
      { unfold vol_ok. hist. split; auto. f_equal. field. lra. }
      match goal with |- vol_ok _ _ (if ?c then _ else _) => destruct c end; [|apply N; reflexivity].
      match goal with |- vol_ok _ _ (let (_, _) := ?X in _) => destruct X as (dg, ex) end. eapply B; reflexivity.
    - apply Ok_inj in H. subst r. unfold pl_DPVisc. remember 60%nat as n60. cbv zeta.
      match goal with |- vol_ok _ _ (if ?c then _ else _) => destruct c end; [destruct (use_pradhana p), (use_mibf p); eapply I; reflexivity|].
      match goal with |- vol_ok _ _ (if ?c then _ else _) => destruct c end; [|apply N; destruct (use_pradhana p), (use_mibf p); reflexivity].
      match goal with |- vol_ok _ _ (let (_, _) := ?X in _) => destruct X as (dg, ex) end. destruct (use_pradhana p), (use_mibf p); eapply B; reflexivity.
    - destruct (mcc_res uabs p El dt t T h Hdt Hv r H) as (r0 & pc & _ & A1 & A2). destruct (rm_plastic r0).
      + destruct (A2 eq_refl) as (U & _ & b & qs & Rs & _). unfold vol_ok. rewrite U, (rs_vol _ _ _ _ _ _ _ _ Rs). pose proof (rs_p _ _ _ _ _ _ _ _ Rs) as E. replace (- b * (P p t - rm_p r0)) with (P p t - b * (P p t - rm_p r0) - P p t) by ring. rewrite <- E. unfold P. field. lra.
      + destruct (A1 eq_refl) as (E1 & U & _ & _ & _ & E2). apply N; auto.
    - apply Ok_inj in H. subst r. unfold pl_DPMui. cbv zeta.
      match goal with |- vol_ok _ _ (if ?c then _ else _) => destruct c end; [eapply I; reflexivity|].
      match goal with |- vol_ok _ _ (if ?c then _ else _) => destruct c end; [eapply B; reflexivity|apply N; reflexivity].
    - destruct (mccmui_res uabs p El dt t T h Hdt r H) as (r0 & pc & _ & A1 & A2). destruct (rm_plastic r0).
      + destruct (A2 eq_refl) as (U & _ & _ & qs & Rs & _). unfold vol_ok. rewrite U, (rs_vol _ _ _ _ _ _ _ _ Rs), <- (rs_p _ _ _ _ _ _ _ _ Rs). unfold P. field. lra.
      + destruct (A1 eq_refl) as (E1 & U & _ & _ & _ & E2 & _). apply N; auto.
  Qed.

  (** ** Cam-Clay *)
  Hypothesis Sa : sane p.
  Lemma facQ_pos : 0 < fac_Q p.
  Proof.
    destruct Sa. unfold fac_Q. numR. apply Rdiv_lt_0_compat; auto. apply Rmult_lt_0_compat; auto. now apply sqrt_lt_R0.
  Qed.
  Definition explicit_law : Prop := match hardening_law p with ExpoImpl | SinhImpl => False | _ => True end.
  Lemma precons_nonneg : forall ev, 0 <= preconsolidation p ev.
  Proof.
    intros ev. destruct Sa. unfold preconsolidation. destruct (hardening_law p); try lra;
      first [eapply Rle_trans; [|apply Rmax_l]; lra | apply Rmult_le_pos; [lra|]; left; apply exp_pos].
  Qed.
  Lemma mcc_rma_spec : forall mui P Q ev r0 pc, mcc_rma uabs p mui P Q ev = Some (r0, pc) -> let M := if mui then mu_1 p else Mfric p in
    (cam_clay M (beta p) (preconsolidation p ev) P Q <= 0 -> rm_plastic r0 = false /\ rm_exit r0 = false) /\
    (0 < cam_clay M (beta p) (preconsolidation p ev) P Q -> rm_plastic r0 = true /\
       (explicit_law -> on_ellipse M (beta p) (preconsolidation p ev) (rm_p r0) (rm_q r0)) /\
       (~ explicit_law -> implicit_result (preconsolidation p) M (beta p) (bulkK p) ev P r0)).
  Proof.
    intros mui P Q ev r0 pc H M. pose proof (K_pos p El) as HK. pose proof (precons_nonneg ev) as Pc. destruct Sa.
    assert (HM : 0 <= M) by (unfold M; destruct mui; lra).
    unfold mcc_rma in H. fold M in H. unfold explicit_law, preconsolidation in *. destruct (hardening_law p).
    - destruct mui; [discriminate|]. apply some_pair in H; destruct H as (<- & _). destruct (explicit_spec uabs P Q M (p0 p) (beta p) (bulkK p) (f_mu_prefac p)) as (E & A & B); auto. tauto.
    - apply some_pair in H; destruct H as (<- & _). rewrite cmax_R. unfold pc_expo. numR. destruct (explicit_spec uabs P Q M (Rmax (stress_tolerance p) (p0 p * exp (- xi p * ev))) (beta p) (bulkK p) (f_mu_prefac p)) as (E & A & B); auto. tauto.
    - apply some_pair in H; destruct H as (<- & _). destruct (implicit_exponential_onevar_spec uabs P Q M (p0 p) (beta p) (mu p) (bulkK p) (xi p) ev) as (A & B); auto. tauto.
    - apply some_pair in H; destruct H as (<- & _). rewrite cmax_R. unfold pc_sinh. numR. destruct (explicit_spec uabs P Q M (Rmax (stress_tolerance p) (bulkK p * sinh (- xi p * ev + Rasinh (p0 p / bulkK p)))) (beta p) (bulkK p) (f_mu_prefac p)) as (E & A & B); auto. tauto.
    - apply some_pair in H; destruct H as (<- & _). destruct (implicit_sinh_onevar_spec P Q M (p0 p) (beta p) (mu p) (bulkK p) (xi p) ev) as (A & B); auto. tauto.
  Qed.
End Glue.
