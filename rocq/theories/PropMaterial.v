(** * PropMaterial: C42-C47, material state over steps and histories. *)
From Coq Require Import Reals ZArith Lra Lia List Bool.
From Verif Require Import Num NumR Tools Lin Types Transfer Rma Plastic Step Spec SpecStep SpecMech SpecPlastic SpecMaterial
  LinProofs ResProofs PloopProofs StepProofs StepField PlasticProofs RmaProofs PlasticModels PlasticGlue MaterialStep PropTime PropStep PropPlastic PropRma.
Import ListNotations.
Local Open Scope R_scope.

(** Admissible material parameters, a correct SVD, and a positive lower limit of the time step. *)
Definition admissible_material {G : Geo R} (svd : TM -> TM * TV * TM) (p : Par R) : Prop :=
  svd_ok svd /\ elastic p /\ sane p /\ 0 < min_dt p.

Lemma nth_pack : forall (G : Geo R) l i x F t h, nth_error (p_x (pack l)) i = Some x -> particle_at (pack l) i F t h ->
  exists q, nth_error l i = Some q /\ q_x q = x /\ q_F q = F /\ q_tau q = t /\ q_h q = h.
Proof.
  intros G l i x F t h Hx (HF & Ht & Hh). unfold pack in *. cbn [p_x p_F p_tau p_hist] in *. rewrite nth_error_map in *.
  destruct (nth_error l i) as [q|]; [|discriminate]. cbn in *. exists q. repeat split; congruence.
Qed.
Lemma F2_nth : forall X Y (Q : X -> Y -> Prop) l l' i x, Forall2 Q l l' -> nth_error l i = Some x -> exists y, nth_error l' i = Some y /\ Q x y.
Proof. intros X Y Q l l' i x F. revert i. induction F; intros [|i] Hi; cbn in *; try discriminate; [injection Hi as <-; eauto|eauto]. Qed.
Lemma vg_unique : forall G, two_or_three G -> forall p axes nodes x (L L' : TM), velocity_gradient p axes nodes x L -> velocity_gradient p axes nodes x L' -> L = L'.
Proof.
  intros G HG p axes nodes x L L' (it & E & H1) (it' & E' & H2). pose proof (geolaws G HG) as GL. assert (it' = it) by congruence. subst it'.
  apply mext. intros i j Hi Hj. rewrite H1, H2; auto.
Qed.

(** One particle over one time step: velocity gradient, trial deformation, plastic correction. *)
Lemma step_particle : forall G, two_or_three G -> forall svd uabs af p sc s0 s1 n i x F t h, valid_sched sc -> well_formed s0 n ->
  advanceStep svd uabs af p sc s0 = Ok s1 -> nth_error (p_x (s_p s0)) i = Some x -> particle_at (s_p s0) i F t h ->
  exists L o, velocity_gradient p (s_axes s1) (s_nodes s1) x L /\
    plasticity svd uabs p (s_dt s1) (mmul (increment (s_dt s1) L) F) t (if use_musl p then reset_dg h else h) = Ok o /\
    particle_at (s_p s1) i (o_F o) (o_tau o) (o_h o).
Proof.
  intros G HG svd uabs af p sc s0 s1 n i x F t h V W H Hx HP. pose proof (geolaws G HG) as GL.
  destruct (step_constitutive svd uabs af p sc s0 s1 n V W H) as (l & l1 & E0 & N & E1 & F2). rewrite E0 in Hx, HP.
  destruct (nth_pack G l i x F t h Hx HP) as (q & Hq & <- & <- & <- & <-). destruct (F2_nth _ _ _ _ _ _ _ F2 Hq) as (q1 & Hq1 & c & L & o & HL & Ho & A & B & C & _).
  exists L, o. split; [exact HL|]. split; [exact Ho|]. rewrite E1. unfold particle_at, pack. cbn [p_F p_tau p_hist]. rewrite !nth_error_map, Hq1. cbn. rewrite A, B, C. auto.
Qed.
Lemma step_dt_pos : forall G, two_or_three G -> forall svd uabs af p sc s0 s1, 0 < min_dt p -> advanceStep svd uabs af p sc s0 = Ok s1 -> 0 < s_dt s1.
Proof. intros G HG svd uabs af p sc s0 s1 Hm H. destruct (C25_time_step_limits G HG svd uabs af p sc s0 s1 ltac:(lra) H) as (A & _). lra. Qed.
Lemma wf_at : forall (G : Geo R) (s : St R) n i, well_formed s n -> (i < n)%nat -> exists x F t h, nth_error (p_x (s_p s)) i = Some x /\ particle_at (s_p s) i F t h.
Proof.
  intros G s n i W Hi. destruct (wf_pack s n W) as (l & L & E & _ & _). rewrite E. destruct (nth_error l i) as [q|] eqn:Q.
  - exists (q_x q), (q_F q), (q_tau q), (q_h q). unfold particle_at, pack. cbn [p_x p_F p_tau p_hist]. rewrite !nth_error_map, Q. auto.
  - apply nth_error_None in Q. lia.
Qed.
Lemma particle_fun : forall (G : Geo R) P i (F F' t t' : TM) (h h' : Hist R), particle_at P i F t h -> particle_at P i F' t' h' -> F' = F /\ t' = t /\ h' = h.
Proof. intros G P i F F' t t' h h' (A & B & C) (A' & B' & C'). repeat split; congruence. Qed.
Lemma tick_p : forall (G : Geo R) p s, s_p (tick p s) = s_p s.
Proof. intros. unfold tick. cbv zeta. destruct (nltb _ _); reflexivity. Qed.

(** ** C42 *)
(** The plastic correction keeps the volume, for every plastic and elastic model. *)
Theorem C42_correction_keeps_volume : forall G, two_or_three G -> forall svd uabs p dt F tau h o, svd_ok svd -> elastic p -> 0 <= visc_time p -> 0 < dt ->
  stretches_ok svd F -> plasticity svd uabs p dt F tau h = Ok o -> volume_ratio (o_F o) (o_h o) = volume_ratio F h.
Proof. intros G HG svd uabs p dt F tau h o. apply plast_volume; auto. Qed.
Print Assumptions C42_correction_keeps_volume.
(** A time step multiplies the volume ratio of a particle by det (I + dt grad v). *)
Theorem C42_step_volume : forall G, two_or_three G -> forall svd uabs af p sc s0 s1 n i x F t h, admissible_material svd p -> valid_sched sc -> well_formed s0 n ->
  advanceStep svd uabs af p sc s0 = Ok s1 -> nth_error (p_x (s_p s0)) i = Some x -> particle_at (s_p s0) i F t h ->
  exists L F1 t1 h1, velocity_gradient p (s_axes s1) (s_nodes s1) x L /\ particle_at (s_p s1) i F1 t1 h1 /\
    (stretches_ok svd (mmul (increment (s_dt s1) L) F) -> volume_ratio F1 h1 = mdet (increment (s_dt s1) L) * volume_ratio F h).
Proof.
  intros G HG svd uabs af p sc s0 s1 n i x F t h (Sv & El & Sa & Hm) V W H Hx HP. pose proof (step_dt_pos G HG svd uabs af p sc s0 s1 Hm H) as Hdt.
  destruct (step_particle G HG svd uabs af p sc s0 s1 n i x F t h V W H Hx HP) as (L & o & HL & Ho & HP1).
  exists L, (o_F o), (o_tau o), (o_h o). split; [exact HL|]. split; [exact HP1|]. intros St.
  rewrite (plast_volume HG svd uabs p _ _ _ _ o Sv El (sa_visc p Sa) Hdt St Ho). unfold volume_ratio. rewrite mdet_mul by auto.
  destruct (use_musl p); unfold reset_dg; cbn [h_vol]; ring.
Qed.
Print Assumptions C42_step_volume.
(** Over any history the volume ratio is the product of det (I + dt grad v) over the steps. *)
Theorem C42_history_volume : forall G, two_or_three G -> forall svd uabs af p i s0 l s1 n F t h, admissible_material svd p -> well_formed s0 n ->
  history svd uabs af p i s0 l s1 -> moderate svd l -> particle_at (s_p s0) i F t h ->
  exists F1 t1 h1, particle_at (s_p s1) i F1 t1 h1 /\ volume_ratio F1 h1 = total_volume_change l * volume_ratio F h.
Proof.
  intros G HG svd uabs af p i s0 l s1 n F t h AM W Hh. revert n F t h W. induction Hh as [s|sc s0 s1 s2 L x F0 l V H Hx HL HF Hh IH]; intros n F t h W Mo HP.
  { exists F, t, h. split; [exact HP|]. cbn. ring. }
  destruct (C42_step_volume G HG svd uabs af p sc s0 s1 n i x F t h AM V W H Hx HP) as (L' & F1 & t1 & h1 & HL' & HP1 & St).
  rewrite (vg_unique G HG p _ _ _ _ _ HL HL') in *. assert (F0 = F) by (destruct HP as (A & _); congruence). subst F0.
  pose proof (wf_tick G p s1 n (C51_step_keeps_arrays G svd uabs af p sc s0 s1 n V W H)) as W1.
  destruct (IH n F1 t1 h1 W1) as (F2 & t2 & h2 & HP2 & E).
  - intros A B HI. apply (Mo A B). now right.
  - now rewrite tick_p.
  - exists F2, t2, h2. split; [exact HP2|]. rewrite E, St by (apply (Mo _ _ (or_introl eq_refl))). cbn [total_volume_change]. ring.
Qed.
Print Assumptions C42_history_volume.

(** ** C43 *)
(** Models whose plastic shear strain cannot decrease. *)
Definition monotone_model (m : PlasticModel) : Prop := match m with MCC | MCCVisc => False | _ => True end.
Lemma return_dev : forall G, two_or_three G -> forall uabs p dt t h r, elastic p -> sane p -> 0 < dt -> TrOk t -> monotone_model (plastic_model p) ->
  return_map uabs p dt t h = Ok r -> h_dev h <= h_dev (r_h r).
Proof.
  intros G HG uabs p dt t h r El Sa Hdt T Mm Hr. pose proof (geolaws G HG) as GL. pose proof (emu_pos p El) as He. pose proof (Q_nonneg p El t T) as Q0.
  pose proof (facQ_pos p Sa) as HQ. pose proof Sa as SA. destruct SA. assert (Hq : 0 < q_prefac p) by (destruct El as (_ & _ & E); exact E).
  assert (Pos : forall x, 0 <= x -> 0 <= x / e_mu_prefac p) by (intros x Hx; apply Rmult_le_pos; [lra|apply Rlt_le, Rinv_0_lt_compat; auto]).
  assert (Add : forall p' q' dd dv, Res p t h r p' q' dd dv -> 0 <= dd -> h_dev h <= h_dev (r_h r)) by (intros p' q' dd dv Rs Hd; rewrite (rs_dev _ _ _ _ _ _ _ _ Rs); lra).
  assert (G0 : forall g, 0 <= g -> 0 <= q_prefac p * (g * dt)) by (intros g Hg; apply Rmult_le_pos; [lra|]; apply Rmult_le_pos; lra).
  unfold return_map in Hr. destruct (plastic_model p) eqn:Pm; try destruct Mm.
  - apply Ok_inj in Hr. subst r. apply Rle_refl.
  - apply Ok_inj in Hr. destruct (vm_res p El dt t T h ltac:(lra)) as (Rs & _). rewrite Hr in Rs. apply (Add _ _ _ _ Rs). apply Pos. pose proof (Rmin_l (Q p t) (q_max p)). lra.
  - apply Ok_inj in Hr. destruct (dp_res p El dt t T h sa_M) as (K1 & K2). rewrite Hr in *. destruct (Rlt_le_dec (dpy p t) (1/10000000000)) as [L|L].
    + destruct (K1 L) as (Rs & _). apply (Add _ _ _ _ Rs). now apply Pos.
    + destruct (K2 L) as (Rs & _). apply (Add _ _ _ _ Rs). apply Pos. pose proof (Rmin_l (Q p t) (dpy p t)). lra.
  - apply Ok_inj in Hr. pose proof (dps_res p El dt t T h sa_M) as K. rewrite Hr in K. cbv zeta in K. destruct K as (K1 & K2 & K3 & K4).
    destruct (Rle_lt_dec (P p t + sh p h) (tip0 p h)) as [L|L]; [destruct (K1 L) as (Rs & _); apply (Add _ _ _ _ Rs); now apply Pos|].
    destruct (Rle_lt_dec (Q p t) (sy p t h)) as [L1|L1]; [pose proof (K2 L L1) as Kr; rewrite Kr; destruct (use_pradhana p); apply Rle_refl|].
    destruct (Rlt_le_dec (P p t + sh p h) (tip1 p t h)) as [L2|L2]; [destruct (K3 L L1 L2) as (Rs & _); apply (Add _ _ _ _ Rs); now apply Pos|].
    destruct (K4 L L1 L2) as (Rs & _). apply (Add _ _ _ _ Rs). apply Pos.
    assert (T01 : tip0 p h <= tip1 p t h <= 0) by (apply tip_mono; auto; pose proof (Pos (Q p t - sy p t h) ltac:(lra)); lra).
    assert (Y : sy1 p t h <= sy p t h) by (unfold sy1, sy; apply Rmult_le_compat_l; lra). lra.
  - apply Ok_inj in Hr. destruct (vmv_res p El dt t T h Hdt sa_visc sa_q r (eq_sym Hr)) as (K1 & K2 & K3).
    destruct (Rlt_le_dec (P p t) (cap p h)) as [L|L]; [destruct (K1 L) as (_ & _ & _ & _ & E & _); rewrite E; pose proof (Pos _ Q0); lra|].
    destruct (Rle_lt_dec (Q p t) (vy p h)) as [L1|L1]; [rewrite (K2 L L1); cbn; lra|].
    destruct (K3 L L1) as (g & Hg & Rs & _). apply (Add _ _ _ _ Rs). auto.
  - apply Ok_inj in Hr. destruct (dpv_res p El dt t T h Hdt sa_visc sa_M r (eq_sym Hr)) as (K1 & K2 & _ & K3).
    destruct (Rlt_le_dec (P p t + sh p h) (tipd p)) as [L|L]; [destruct (K1 L) as (Rs & _); apply (Add _ _ _ _ Rs); now apply Pos|].
    destruct (Rle_lt_dec (Q p t) (dy p t h)) as [L1|L1]; [destruct (K2 L (or_intror L1)) as (_ & _ & _ & _ & E & _); lra|].
    destruct (Req_dec (tipd p) (P p t + sh p h)) as [L2|L2]; [destruct (K2 L (or_introl L2)) as (_ & _ & _ & _ & E & _); lra|].
    destruct (K3 ltac:(lra) L1) as (g & Hg & Rs & _). apply (Add _ _ _ _ Rs). auto.
  - apply Ok_inj in Hr. destruct (dpm_res p El dt t T h Hdt sa_mu1 sa_mu2 HQ sa_tol r (eq_sym Hr)) as (K1 & K2 & K3).
    destruct (Rlt_le_dec (P p t + sh p h) (tipm p)) as [L|L]; [destruct (K1 L) as (Rs & _); apply (Add _ _ _ _ Rs); now apply Pos|].
    destruct (Rle_lt_dec (Q p t) (my p t h + stress_tolerance p)) as [L1|L1]; [destruct (K2 L (or_intror L1)) as (_ & _ & _ & _ & E & _); lra|].
    destruct (Req_dec (tipm p) (P p t + sh p h)) as [L2|L2]; [destruct (K2 L (or_introl L2)) as (_ & _ & _ & _ & E & _); lra|].
    destruct (K3 ltac:(lra) L1) as (g & Hg & Rs & _). apply (Add _ _ _ _ Rs). apply G0. lra.
  - destruct (mccmui_res uabs p El dt t T h Hdt r Hr) as (r0 & pc & E & K1 & K2). destruct (rm_plastic r0) eqn:Pl.
    + destruct (K2 eq_refl) as (_ & _ & _ & qs & Rs & _ & K & _). apply (Add _ _ _ _ Rs). destruct (Rltb_spec (rm_q r0 + stress_tolerance p) (Q p t)); [|lra].
      apply Pos. specialize (K ltac:(auto) sa_tol ltac:(lra)). lra.
    + destruct (K1 eq_refl) as (_ & _ & _ & _ & E' & _). lra.
Qed.
(** The accumulated plastic shear strain of a particle does not decrease over any history, for
    every model but MCC and MCCVisc. *)
Theorem C43_plastic_strain_grows_partial : forall G, two_or_three G -> forall svd uabs af p i s0 l s1 n F t h, admissible_material svd p -> monotone_model (plastic_model p) ->
  well_formed s0 n -> history svd uabs af p i s0 l s1 -> particle_at (s_p s0) i F t h ->
  exists F1 t1 h1, particle_at (s_p s1) i F1 t1 h1 /\ h_dev h <= h_dev h1.
Proof.
  intros G HG svd uabs af p i s0 l s1 n F t h AM Mm W Hh. revert n F t h W. induction Hh as [s|sc s0 s1 s2 L x F0 l V H Hx HL HF Hh IH]; intros n F t h W HP.
  { exists F, t, h. split; [exact HP|]. apply Rle_refl. }
  destruct (step_particle G HG svd uabs af p sc s0 s1 n i x F t h V W H Hx HP) as (L' & o & _ & Ho & HP1).
  pose proof AM as (Sv & El & Sa & Hm). pose proof (step_dt_pos G HG svd uabs af p sc s0 s1 Hm H) as Hdt.
  pose proof (wf_tick G p s1 n (C51_step_keeps_arrays G svd uabs af p sc s0 s1 n V W H)) as W1.
  destruct (IH n (o_F o) (o_tau o) (o_h o) W1) as (F2 & t2 & h2 & HP2 & E); [now rewrite tick_p|].
  exists F2, t2, h2. split; [exact HP2|]. eapply Rle_trans; [|exact E]. pose proof (geolaws G HG) as GL.
  apply plast_inv in Ho. destruct Ho as (U & sg & Vm & r & Es & Hr & _ & _ & Eh & _). destruct (trial_pq svd p El Sv _ _ _ _ Es) as (T & _).
  apply (return_dev G HG) in Hr; auto. rewrite Eh. eapply Rle_trans; [|exact Hr]. destruct (use_musl p); apply Rle_refl.
Qed.
Print Assumptions C43_plastic_strain_grows_partial.
