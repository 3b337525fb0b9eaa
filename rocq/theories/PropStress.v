(** * PropStress: C44 and C45, stored stress and objectivity. *)
From Coq Require Import Reals ZArith Lra Lia List Bool.
From Verif Require Import Num NumR Tools Lin Types Transfer Rma Plastic Step Save Spec SpecStep SpecMech SpecPlastic SpecMaterial
  LinProofs ResProofs PloopProofs StepProofs StepField PlasticProofs RmaProofs PlasticModels PlasticGlue MaterialStep StressProofs PropTime PropStep PropPlastic PropRma PropMaterial.
Import ListNotations.
Local Open Scope R_scope.

(** The tensile state in which VMVisc resets the deformation to a rotation. *)
Definition torn {G : Geo R} (svd : TM -> TM * TV * TM) (p : Par R) (F : TM) (h : Hist R) : Prop :=
  plastic_model p = VMVisc /\ pressure (trial_stress svd p F) < p_min p * exp (- xi p * h_vol h).

Lemma upd_rotation : forall (G : Geo R) uabs p dt t h r, return_map uabs p dt t h = Ok r -> r_upd r = Rotation ->
  plastic_model p = VMVisc /\ P p t < cap p h.
Proof.
  assert (Mcc : forall (G : Geo R) uabs p dt t h r, pl_MCC uabs p dt t h = Ok r -> r_upd r = Rotation -> False).
  { intros G uabs p dt t h r Hr Hu. unfold pl_MCC in Hr. cbv zeta in Hr. destruct (mcc_rma _ _ _ _ _ _) as [[r0 pc]|]; [|discriminate]. destruct (rm_plastic r0); [|apply Ok_inj in Hr; subst r; discriminate].
    match type of Hr with context [match ?X with (_, _) => _ end] => destruct X as [[b q] ex] end. apply bind_Ok in Hr. destruct Hr as (h2 & _ & Hr). apply Ok_inj in Hr. subst r. discriminate. }
  intros G uabs p dt t h r Hr Hu. unfold return_map in Hr. destruct (plastic_model p) eqn:Pm; try (exfalso; now apply (Mcc _ _ _ _ _ _ _ Hr Hu)); try (apply Ok_inj in Hr; subst r).
  - discriminate.
  - unfold pl_VM in Hu. cbv zeta in Hu. destruct (nltb _ _); discriminate.
  - unfold pl_DP in Hu. cbv zeta in Hu. destruct (nltb _ _); [discriminate|]. destruct (nltb _ _); discriminate.
  - unfold pl_DPSoft in Hu. cbv zeta in Hu. destruct (nleb _ _); [discriminate|]. destruct (_ && _)%bool; [discriminate|].
    destruct (_ && _)%bool; [|discriminate]. destruct (nltb _ _); discriminate.
  - split; [reflexivity|]. unfold pl_VMVisc in Hu. cbv zeta in Hu.
    destruct (Rltb_spec (P p t) (cap p h)) as [L|L]; [exact L|]. exfalso.
    match type of Hu with context [nltb ?a ?b] => assert (E : nltb a b = false) by (change (Rltb (P p t) (cap p h) = false); destruct (Rltb_spec (P p t) (cap p h)); [lra|reflexivity]); rewrite E in Hu; clear E end.
    destruct (nltb _ _); [|discriminate]. match type of Hu with context [match ?X with (_, _) => _ end] => destruct X as [dg ex] end. discriminate.
  - unfold pl_DPVisc in Hu. cbv zeta in Hu. destruct (nltb _ _); [discriminate|]. destruct (_ && _)%bool; [|discriminate]. match type of Hu with context [match ?X with (_, _) => _ end] => destruct X as [dg ex] end. discriminate.
  - unfold pl_DPMui in Hu. cbv zeta in Hu. destruct (nltb _ _); [discriminate|]. destruct (_ && _)%bool; discriminate.
  - exfalso. unfold pl_MCCMui in Hr. cbv zeta in Hr. destruct (mcc_rma _ _ _ _ _ _) as [[r0 pc]|]; [|discriminate]. destruct (rm_plastic r0); [|apply Ok_inj in Hr; subst r; discriminate].
    match type of Hr with context [match ?X with (_, _) => _ end] => destruct X as [qf h2] end. apply Ok_inj in Hr. subst r. discriminate.
Qed.
Lemma mtr_lscale : forall (G : Geo R) (GL : GeoLaws G) c (a : TM), mtr (mlscale c a) = mlscale c (mtr a).
Proof. intros. apply mext. intros i j Hi Hj. rewrite ?mget_tr, ?mget_lscale, ?mget_tr by auto. reflexivity. Qed.
Lemma mtr_sub : forall (G : Geo R) (GL : GeoLaws G) (a b : TM), mtr (msub a b) = msub (mtr a) (mtr b).
Proof. intros. apply mext. intros i j Hi Hj. rewrite ?mget_tr, ?mget_sub, ?mget_tr by auto. reflexivity. Qed.
Lemma msub_add : forall (G : Geo R) (GL : GeoLaws G) (a b : TM), msub a b = madd a (mlscale (-1) b).
Proof. intros. apply mext. intros i j Hi Hj. rewrite ?mget_add, ?mget_sub, ?mget_lscale by auto. ring. Qed.
Lemma mdiag_ones : forall (G : Geo R) (GL : GeoLaws G), mdiag vones = mident.
Proof. intros. apply mext. intros i j Hi Hj. rewrite mget_diag, mget_ident by auto. destruct (Nat.eqb i j); auto. now rewrite vget_ones. Qed.
Lemma mdiag_zero : forall (G : Geo R) (GL : GeoLaws G) (v : TV), (forall k, (k < dim)%nat -> vget v k = 0) -> mdiag v = mzero.
Proof. intros G GL v H. apply mext. intros i j Hi Hj. rewrite mget_diag, mget_zero by auto. destruct (Nat.eqb i j); auto. Qed.
Lemma log_ok : forall (G : Geo R) (GL : GeoLaws G) (s : TV), (forall k, (k < dim)%nat -> 1/10000 <= vget s k) -> log_strain s = vtab (fun k => ln (vget s k)).
Proof. intros G GL s H. unfold log_strain. apply vext. intros k Hk. rewrite !vget_tab by auto. now rewrite Rmax_left by auto. Qed.

(** ** C44 *)
(** After a stress update the stored stress is the Hencky stress of the stored deformation. *)
Theorem C44_stored_stress_hencky : forall G, two_or_three G -> forall svd uabs p dt F tau h o, svd_ok svd -> elastic p -> sane p -> 0 < dt ->
  elastic_model p = Hencky -> stretches_ok svd F -> ~ torn svd p F h -> plasticity svd uabs p dt F tau h = Ok o -> is_hencky_stress p (o_F o) (o_tau o).
Proof.
  intros G HG svd uabs p dt F tau h o Sv El Sa Hdt Em St Nt Ho. pose proof (geolaws G HG) as GL.
  apply plast_inv in Ho. destruct Ho as (U & s & V & r & Es & Hr & EF & Et & _). rewrite Em in Et. pose proof (Sv _ _ _ _ Es) as S.
  destruct (trial_pq svd p El Sv _ _ _ _ Es) as (T & EP & _). pose proof (return_vol uabs p dt El Hdt (sa_visc p Sa) (trial s) h r T Hr) as Vk. unfold vol_ok in Vk.
  destruct (r_upd r) eqn:Eu.
  - destruct Vk as (Er & _). exists U, s, V. rewrite EF. split; [exact S|]. split; [intros k Hk; specialize (St _ _ _ Es k Hk); lra|].
    rewrite Et, Er, hencky_tau_eq. f_equal. destruct (trial_spec s) as (E & _); [apply (sv_s _ _ _ _ S)|]. rewrite E. apply log_ok; auto. apply (St _ _ _ Es).
  - exists U, (vtab (fun k => exp (vget (r_hencky r) k))), V. split; [|split].
    + rewrite EF. destruct S. split; auto.
      * intros k Hk. rewrite vget_tab by auto. apply Rlt_le, exp_pos.
    + intros k Hk. rewrite vget_tab by auto. apply exp_pos.
    + rewrite Et, hencky_tau_eq. f_equal. apply vext. intros k Hk. rewrite !vget_tab by auto. now rewrite ln_exp.
  - exfalso. apply Nt. destruct (upd_rotation G uabs p dt _ h r Hr Eu) as (A & B). split; [exact A|]. rewrite EP. exact B.
Qed.
Print Assumptions C44_stored_stress_hencky.
Theorem C44_stored_stress_neo_hookean : forall G, two_or_three G -> forall svd uabs p dt F tau h o,
  elastic_model p = NeoHookean -> mdet (o_F o) <> 0 -> plasticity svd uabs p dt F tau h = Ok o -> o_tau o = neo_hookean_stress p (o_F o).
Proof.
  intros G HG svd uabs p dt F tau h o Em D Ho. pose proof (geolaws G HG) as GL. apply plast_inv in Ho. destruct Ho as (U & s & V & r & _ & _ & _ & Et & _).
  rewrite Em in Et. rewrite Et. now apply neo_eq.
Qed.
Print Assumptions C44_stored_stress_neo_hookean.
(** Both stresses are symmetric. *)
Theorem C44_symmetric : forall G, two_or_three G -> forall p F t, is_hencky_stress p F t \/ t = neo_hookean_stress p F -> mtr t = t.
Proof.
  intros G HG p F t Ht. pose proof (geolaws G HG) as GL. destruct Ht as [(U & s & V & _ & _ & ->)| ->].
  - unfold hencky_stress. now rewrite !mtr_mul, mtr_tr, mtr_diag, mmul_assoc.
  - unfold neo_hookean_stress. now rewrite mtr_add, !mtr_lscale, mtr_sub, mtr_mul, mtr_tr, mtr_ident.
Qed.
Print Assumptions C44_symmetric.
(** The saved p and q of a Hencky stress, in terms of the logarithmic principal stretches e:
    p = -K tr e and q = 2 q_prefac mu |e - tr e / d|. *)
Theorem C44_saved_pressure_and_shear : forall G, two_or_three G -> forall p F t, elastic p -> is_hencky_stress p F t ->
  exists U s V, is_svd F U s V /\ (forall k, (k < dim)%nat -> 0 < vget s k) /\
    let e := fun k => ln (vget s k) in let tr := sumd e in
    save_p t = - bulkK p * tr /\ save_q p t = 2 * q_prefac p * mu p * sqrt (sumd (fun k => (e k - tr / INR dim)²)).
Proof.
  intros G HG p F t El (U & s & V & S & Ps & ->). pose proof (geolaws G HG) as GL. exists U, s, V. split; [exact S|]. split; [exact Ps|].
  rewrite <- hencky_tau_eq. set (e := vtab (fun k => ln (vget s k))).
  pose proof (stress_pressure p U e (sv_U _ _ _ _ S)) as A. pose proof (stress_shear p U e (q_prefac p) (sv_U _ _ _ _ S) ltac:(destruct El; lra) (Rlt_le _ _ (mu_pos p El))) as B.
  assert (Ee : forall k, (k < dim)%nat -> vget e k = ln (vget s k)) by (intros k Hk; unfold e; now rewrite vget_tab by auto).
  assert (Ev : vsum e = sumd (fun k => ln (vget s k))) by (unfold vsum; apply sumd_ext; exact Ee).
  cbv zeta. split.
  - rewrite <- Ev, <- A, pressure_trace. unfold save_p. now rewrite dimA_R.
  - rewrite <- Ev. transitivity (shear (q_prefac p) (hencky_tau p U e)).
    + rewrite shear_mdd. unfold save_q. cbv zeta. assert (X : save_p (hencky_tau p U e) = pressure (hencky_tau p U e)) by (rewrite pressure_trace; unfold save_p; now rewrite dimA_R). now rewrite X.
    + rewrite B. f_equal. unfold vnorm. numR. f_equal. unfold vsqnorm, vdot. apply sumd_ext. intros k Hk. rewrite vget_dev by auto. rewrite Ee by auto. unfold Rsqr. now numR.
Qed.
Print Assumptions C44_saved_pressure_and_shear.
(** After every time step, for every particle. *)
Theorem C44_step_stress : forall G, two_or_three G -> forall svd uabs af p sc s0 s1 n i x F t h, admissible_material svd p -> valid_sched sc -> well_formed s0 n ->
  advanceStep svd uabs af p sc s0 = Ok s1 -> nth_error (p_x (s_p s0)) i = Some x -> particle_at (s_p s0) i F t h ->
  exists L F1 t1 h1, velocity_gradient p (s_axes s1) (s_nodes s1) x L /\ particle_at (s_p s1) i F1 t1 h1 /\
    let Ft := mmul (increment (s_dt s1) L) F in
    (elastic_model p = Hencky -> stretches_ok svd Ft -> ~ torn svd p Ft h -> is_hencky_stress p F1 t1) /\
    (elastic_model p = NeoHookean -> mdet F1 <> 0 -> t1 = neo_hookean_stress p F1).
Proof.
  intros G HG svd uabs af p sc s0 s1 n i x F t h (Sv & El & Sa & Hm) V W H Hx HP. pose proof (step_dt_pos G HG svd uabs af p sc s0 s1 Hm H) as Hdt.
  destruct (step_particle G HG svd uabs af p sc s0 s1 n i x F t h V W H Hx HP) as (L & o & HL & Ho & HP1).
  exists L, (o_F o), (o_tau o), (o_h o). split; [exact HL|]. split; [exact HP1|]. split.
  - intros Em St Nt. apply (C44_stored_stress_hencky G HG svd uabs p (s_dt s1) _ _ _ o Sv El Sa Hdt Em St) in Ho; auto.
    intros (A & B). apply Nt. split; [exact A|]. destruct (use_musl p); exact B.
  - intros Em D. eapply C44_stored_stress_neo_hookean; eauto.
Qed.
Print Assumptions C44_step_stress.

(** ** C45 *)
(** The whole stress update is objective: an orthogonal map of the trial deformation maps the
    deformation and the stress, and leaves the history unchanged, for every plastic model. *)
Theorem C45_update_objective : forall G, two_or_three G -> forall svd uabs p dt Q F tau tau' h o, svd_ok svd -> orthogonal Q -> mdet F <> 0 ->
  plasticity svd uabs p dt F tau h = Ok o ->
  exists o', plasticity svd uabs p dt (mmul Q F) tau' h = Ok o' /\ o_F o' = mmul Q (o_F o) /\ o_h o' = o_h o /\ o_count o' = o_count o /\ o_exit o' = o_exit o /\
    (elastic_model p = Hencky -> o_tau o' = mmul (mmul Q (o_tau o)) (mtr Q)).
Proof. intros G HG svd uabs p dt Q F tau tau' h o Sv. pose proof (geolaws G HG) as GL. exact (plast_objective svd Sv uabs HG p dt Q F tau tau' h o). Qed.
Print Assumptions C45_update_objective.
(** Hencky's law is a function of the deformation, and objective. *)
Theorem C45_hencky_objective : forall G, two_or_three G -> forall p Q F t t', orthogonal Q -> is_hencky_stress p F t -> is_hencky_stress p (mmul Q F) t' ->
  t' = mmul (mmul Q t) (mtr Q).
Proof.
  intros G HG p Q F t t' HQ (U & s & V & S & Ps & ->) H'. pose proof (geolaws G HG) as GL. apply (hencky_unique p (mmul Q F) _ _ H').
  exists (mmul Q U), s, V. split; [|split; [exact Ps|]].
  - destruct S. split; auto; [now apply orth_mul|]. rewrite sv_F. now rewrite !mmul_assoc.
  - unfold hencky_stress. now rewrite mtr_mul, !mmul_assoc.
Qed.
Print Assumptions C45_hencky_objective.
(** So is the Neo-Hookean law under rotations. *)
Theorem C45_neo_hookean_objective : forall G, two_or_three G -> forall p (Q F : TM), orthogonal Q -> mdet Q = 1 ->
  neo_hookean_stress p (mmul Q F) = mmul (mmul Q (neo_hookean_stress p F)) (mtr Q).
Proof.
  intros G HG p Q F (Q1 & Q2) D. pose proof (geolaws G HG) as GL. unfold neo_hookean_stress. rewrite mdet_mul, D, Rmult_1_l by auto.
  rewrite !msub_add, !mmul_add_r, !mmul_add_l, !mmul_scale_r, !mmul_scale_l, !mmul_add_r, !mmul_add_l, !mmul_scale_r, !mmul_scale_l, mmul_id_r, Q2 by auto.
  rewrite mtr_mul, !mmul_assoc. reflexivity.
Qed.
Print Assumptions C45_neo_hookean_objective.
(** A rotation has zero stress. *)
Theorem C45_rotation_is_stress_free : forall G, two_or_three G -> forall p (Q t : TM), orthogonal Q -> mdet Q = 1 ->
  is_hencky_stress p Q t \/ t = neo_hookean_stress p Q -> t = mzero.
Proof.
  intros G HG p Q t HQ D Ht. pose proof (geolaws G HG) as GL. destruct Ht as [Ht| ->].
  - assert (Z : is_hencky_stress p Q (hencky_stress p Q (vtab (fun k => ln (vget vones k))))).
    { exists Q, vones, mident. split; [|split; [intros k Hk; rewrite vget_ones by auto; lra|reflexivity]].
      assert (Oi : orthogonal (mident : TM)) by (split; now rewrite mtr_ident, mmul_id_l).
      split; auto; [now rewrite mdiag_ones, mtr_ident, !mmul_id_r by auto|intros k Hk; rewrite vget_ones by auto; lra]. }
    rewrite (hencky_unique p Q _ _ Ht Z). unfold hencky_stress. rewrite (mdiag_zero G GL); [now rewrite mmul_0_r, mmul_0_l|].
    assert (E : forall k, (k < dim)%nat -> vget (vtab (fun k => ln (vget (vones : TV) k))) k = 0) by (intros k Hk; now rewrite vget_tab, vget_ones, ln_1 by auto).
    intros k Hk. rewrite vget_tab, E by auto. rewrite (sumd_ext _ (fun _ => 0)) by (intros j Hj; now apply E). rewrite sumd_const. ring.
  - unfold neo_hookean_stress. rewrite D, ln_1. destruct HQ as (_ & Q2). rewrite Q2. apply mext. intros i j Hi Hj. rewrite mget_add, !mget_lscale, mget_sub, mget_zero by auto. ring.
Qed.
Print Assumptions C45_rotation_is_stress_free.
(** The pressure of Hencky's law is -K ln |det F|, with K = lambda + 2 mu / d. *)
Theorem C45_hydrostatic : forall G, two_or_three G -> forall p F t, is_hencky_stress p F t ->
  pressure t = - (lambda p + 2 * mu p / INR dim) * ln (Rabs (mdet F)).
Proof.
  intros G HG p F t (U & s & V & S & Ps & ->). pose proof (geolaws G HG) as GL. rewrite <- hencky_tau_eq, stress_pressure by apply (sv_U _ _ _ _ S). rewrite bulk_R. f_equal.
  destruct S as [OU OV -> _]. rewrite !mdet_mul by auto. rewrite mdet_tr by auto.
  assert (A : forall W : TM, orthogonal W -> Rabs (mdet W) = 1).
  { intros W OW. pose proof (mdet_orth G HG W OW) as E. unfold Rabs; destruct (Rcase_abs _); nra. }
  rewrite !Rabs_mult, (A U OU), (A V OV). rewrite mdet_diag by auto. rewrite Rmult_1_l, Rmult_1_r. unfold vsum. rewrite (sumd_ext _ (fun k => ln (vget s k))) by (intros k Hk; now rewrite vget_tab by auto).
  destruct HG; subst; [pose proof (Ps 0%nat ltac:(cbn; lia)) as P0; pose proof (Ps 1%nat ltac:(cbn; lia)) as P1|pose proof (Ps 0%nat ltac:(cbn; lia)) as P0; pose proof (Ps 1%nat ltac:(cbn; lia)) as P1; pose proof (Ps 2%nat ltac:(cbn; lia)) as P2].
  - unfold sumd, sumto. cbn [dim Geo2 pred seq map fold_right fold_left]. rewrite Rabs_pos_eq; [rewrite !ln_mult; rewrite ?ln_1; numR; try lra; repeat apply Rmult_lt_0_compat; lra|]; apply Rlt_le; repeat apply Rmult_lt_0_compat; lra.
  - unfold sumd, sumto. cbn [dim Geo3 pred seq map fold_right fold_left]. rewrite Rabs_pos_eq; [rewrite !ln_mult; rewrite ?ln_1; numR; try lra; repeat apply Rmult_lt_0_compat; lra|]; apply Rlt_le; repeat apply Rmult_lt_0_compat; lra.
Qed.
Print Assumptions C45_hydrostatic.
