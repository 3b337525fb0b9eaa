(** * PropStrength: C70, stresses never exceed the strength of the material. *)
From Coq Require Import Reals ZArith Lra Lia List Bool.
From Verif Require Import Num NumR Tools Lin Types Remesh Objects Transfer Rma Plastic Step Spec SpecStep SpecMech SpecPlastic SpecMaterial SpecStrength SvdExist LinProofs ResProofs PloopProofs PlasticProofs RmaProofs PlasticModels PlasticGlue StepProofs SpecTime TimeProofs PlateProofs GuardProofs Examples ExStep PropStep PropPlastic PropRma PropMaterial PropDefined ExPlastic.
Import ListNotations.
Local Open Scope R_scope.


(** ** The volume correction of the models that do not use it *)
Lemma prad_kept : forall G (uabs : R -> R) (p : @Par R G) dt t h r, return_map uabs p dt t h = Ok r ->
  match plastic_model p with VM | DP | VMVisc => True | _ => False end -> h_prad (r_h r) = h_prad h.
Proof.
  intros G uabs p dt t h r H M. unfold return_map in H. destruct (plastic_model p); try contradiction; apply Ok_inj in H; subst r.
  - unfold pl_VM. cbv zeta. destruct (nltb _ _); reflexivity.
  - unfold pl_DP. cbv zeta. repeat destruct (nltb _ _); reflexivity.
  - unfold pl_VMVisc. cbv zeta. repeat first [destruct (nltb _ _)|destruct (nleb _ _)|destruct (_ && _)%bool|destruct (_ || _)%bool|destruct (newton _ _ _ _ _)|destruct (neqb _ _)]; reflexivity.
Qed.

Lemma shift_nonpos : forall G (p : @Par R G) h, 0 < bulkK p -> 0 <= h_prad h -> vol_shift p h <= 0.
Proof. intros G p h K H. unfold vol_shift. destruct (use_pradhana p); nra. Qed.
(** The correction stays non-negative when a state is brought to the tip of the cone. *)
Lemma prad_tip : forall G (p : @Par R G) h P tip, 0 < bulkK p -> 0 <= h_prad h -> P + vol_shift p h < tip ->
  0 <= h_prad h + (tip - P) / bulkK p.
Proof.
  intros G p h P tip K H L. assert (L' : P - bulkK p * h_prad h < tip) by (unfold vol_shift in L; destruct (use_pradhana p); nra). apply Rmult_le_reg_l with (bulkK p); [lra|].
  replace (bulkK p * (h_prad h + (tip - P) / bulkK p)) with (bulkK p * h_prad h + tip - P) by (field; lra). lra.
Qed.

(** One stress update, from any deformation; [h_prad]: the accumulated volume correction. *)
Theorem C70_update_partial : forall G, two_or_three G -> forall svd uabs p dt F tau h o, updated svd uabs p dt F tau h o -> has_strength p ->
  0 <= h_prad h ->
  0 <= h_prad (o_h o) /\
  (~ special p h (pressure (trial_stress svd p F)) -> within_strength p (o_tau o)).
Proof.
  intros G HG svd uabs p dt F tau h o H Hs Hp. pose proof H as (_ & El0 & Sa0 & _ & Hdt0 & _). pose proof (facQ_pos p Sa0) as HQ.
  pose proof (geolaws G HG) as GL0.
  pose proof (K_pos p El0) as HK. pose proof (shift_nonpos G p h HK Hp) as Sh.
  unfold has_strength in Hs. unfold within_strength, strength, special. destruct (plastic_model p) eqn:Pm; try contradiction.
  - destruct (C35_von_mises G HG svd uabs p dt F tau h o H Pm) as (_ & B & _). split; [|intros _; rewrite B; apply Rmin_r].
    setup G HG H. rewrite Hh, (prad_kept G uabs p dt (trial s) h r Hr); [auto|now rewrite Pm].
  - destruct (C36_drucker_prager G HG svd uabs p dt F tau h o H Pm) as (_ & _ & _ & B). split; [|intros _; lra].
    setup G HG H. rewrite Hh, (prad_kept G uabs p dt (trial s) h r Hr); [auto|now rewrite Pm].
  - destruct Hs as (Z & N & X). split.
    + setup G HG H. rewrite Hh, (prad_kept G uabs p dt (trial s) h r Hr); [auto|now rewrite Pm].
    + intros NS. apply Rnot_lt_le in NS. destruct (Rle_lt_dec (shear (q_prefac p) (trial_stress svd p F)) (vm_yield p (h_dev h))) as [L|L].
      * destruct (C34_elastic_states G HG svd uabs p dt F tau h o H) as (_ & -> & _); [unfold elastic_domain; rewrite Pm; auto|].
        unfold vm_yield in L. rewrite X in L. replace (- 0 * h_dev h) with 0 in L by ring. rewrite exp_0 in L. lra.
      * destruct (C38_viscous_von_mises G HG svd uabs p dt F tau h o H Pm NS L) as (g & q' & Vr & _ & _ & E). destruct Vr as (_ & _ & _ & -> & _).
        destruct Sa0. rewrite (E Z N X), Rabs_pos_eq by lra. lra.
  - destruct Hs as (Z & N). split.
    + setup G HG H. unfold return_map in Hr. rewrite Pm in Hr. apply Ok_inj in Hr. destruct Sa.
      destruct (dpv_res p El dt (trial s) T h Hdt sa_visc sa_M r (eq_sym Hr)) as (K0 & _ & K1 & _). rewrite Hh. destruct (Rlt_le_dec (P p (trial s) + sh p h) (tipd p)) as [L|L].
      * destruct (K0 L) as (_ & _ & _ & _ & ->). pose proof (prad_tip G p h (P p (trial s)) (tipd p) HK Hp L). destruct (use_pradhana p); auto.
      * rewrite (K1 L). destruct (use_pradhana p); lra.
    + intros NS. destruct (C38_viscous_drucker_prager G HG svd uabs p dt F tau h o H Pm) as (A & B). cbv zeta in A, B. pose proof (sa_M p Sa0) as HM.
      destruct (Rtotal_order (pressure (trial_stress svd p F) + vol_shift p h) (- q_cohesion p / Mfric p)) as [L|[L|L]]; [| contradiction |].
      * destruct (A L) as (-> & -> & _). right. field. lra.
      * destruct (Rle_lt_dec (shear (q_prefac p) (trial_stress svd p F)) (Mfric p * (pressure (trial_stress svd p F) + vol_shift p h) + q_cohesion p)) as [L2|L2].
        -- destruct (C34_elastic_states G HG svd uabs p dt F tau h o H) as (_ & -> & _); [unfold elastic_domain; rewrite Pm; split; lra|]. nra.
        -- destruct (B L L2) as (g & q' & Vr & _ & _ & E). destruct Vr as (_ & _ & -> & -> & _). rewrite (E Z N).
           assert (X : - q_cohesion p < Mfric p * (pressure (trial_stress svd p F) + vol_shift p h)).
           { apply Rmult_lt_compat_l with (r := Mfric p) in L; [|lra]. replace (Mfric p * (- q_cohesion p / Mfric p)) with (- q_cohesion p) in L by (field; lra). lra. }
           rewrite Rabs_pos_eq by lra. nra.
  - split.
    + setup G HG H. unfold return_map in Hr. rewrite Pm in Hr. apply Ok_inj in Hr. destruct Sa.
      destruct (dpm_res p El dt (trial s) T h Hdt sa_mu1 sa_mu2 HQ sa_tol r (eq_sym Hr)) as (K0 & K1 & K2). rewrite Hh. destruct (Rlt_le_dec (P p (trial s) + sh p h) (tipm p)) as [L|L].
      * destruct (K0 L) as (_ & _ & _ & _ & _ & _ & ->). exact (prad_tip G p h (P p (trial s)) (tipm p) HK Hp L).
      * destruct (Rle_lt_dec (Q p (trial s)) (my p (trial s) h + stress_tolerance p)) as [L2|L2].
        -- destruct (K1 L (or_intror L2)) as (_ & _ & _ & _ & _ & _ & _ & _ & ->). lra.
        -- destruct L as [L|L].
           ++ destruct (K2 L L2) as (g & _ & _ & _ & _ & _ & _ & -> & _). lra.
           ++ destruct (K1 (or_intror L) (or_introl L)) as (_ & _ & _ & _ & _ & _ & _ & _ & ->). lra.
    + intros NS. pose proof (C41_dp_mui G HG svd uabs p dt F tau h o H Pm) as B. pose proof (C41_dp_mui_tip G HG svd uabs p dt F tau h o H Pm) as A. cbv zeta in A, B.
      pose proof (sa_mu1 p Sa0) as HM. pose proof (sa_mu2 p Sa0) as HM2. pose proof (sa_tol p Sa0) as HT. rewrite Hs in *.
      assert (Z : - 0 / mu_1 p = 0) by (field; lra). rewrite Z in *.
      destruct (Rtotal_order (pressure (trial_stress svd p F) + vol_shift p h) 0) as [L|[L|L]]; [| contradiction |].
      * destruct (A L) as (-> & -> & _). nra.
      * destruct (Rle_lt_dec (shear (q_prefac p) (trial_stress svd p F)) (mu_1 p * (pressure (trial_stress svd p F) + vol_shift p h) + 0 + stress_tolerance p)) as [L2|L2].
        -- destruct (C34_elastic_states G HG svd uabs p dt F tau h o H) as (_ & -> & _); [unfold elastic_domain; rewrite Pm, Hs, Z; split; lra|]. nra.
        -- destruct (B L L2) as (g & q' & Hg & Vr & _ & E & _ & M1 & _). destruct Vr as (_ & _ & -> & -> & _). clear A B.
           rewrite Rabs_pos_eq; nra.
Qed.
Print Assumptions C70_update_partial.

(** ** Whole simulations *)
Lemma run_snoc : forall G svd uabs af (p : @Par R G) s0 l s sc s1, run svd uabs af p s0 l s -> advanceStep svd uabs af p sc s = Ok s1 ->
  exists l', run svd uabs af p s0 l' (tick p s1).
Proof.
  intros G svd uabs af p s0 l s sc s1 Hr E. induction Hr.
  - eexists. eapply run_step; [exact E|constructor].
  - destruct (IHHr E) as (l' & X). eexists. eapply run_step; eauto.
Qed.

Lemma special_dec : forall G (p : @Par R G) h P, {special p h P} + {~ special p h P}.
Proof. intros. unfold special. destruct (plastic_model p); auto using Rlt_dec, Req_EM_T. Qed.

(** Every particle of every saved state, in every simulation that starts inside the strength of the
    material, for all schedules. *)
Theorem C70_simulation_partial : forall G, two_or_three G -> forall svd uabs fuel af p init sch s0 n st s1 ev, admissible_material svd p -> elastic_model p = Hencky -> has_strength p ->
  (forall k, valid_sched (sch k)) -> well_formed s0 n -> Forall (within_strength p) (p_tau (s_p s0)) -> Forall (fun h => 0 <= h_prad h) (p_hist (s_p s0)) ->
  simulate svd uabs fuel af p init sch s0 = Ok (st, s1, ev) ->
  forall s i t, In (EvParticles s) ev -> nth_error (p_tau (s_p s)) i = Some t ->
    within_strength p t \/ met_special svd uabs af p (sim_start p s0) s i.
Proof.
  intros G HG svd uabs fuel af p init sch s0 n st s1 ev (Sv & El & Sa & Hm) Hk Hs V W T0 P0 H. pose proof (geolaws G HG) as GL.
  set (good := fun s : St R => forall i t, nth_error (p_tau (s_p s)) i = Some t -> within_strength p t \/ met_special svd uabs af p (sim_start p s0) s i).
  set (safe := fun s : St R => well_formed s n /\ Forall (fun h => 0 <= h_prad h) (p_hist (s_p s)) /\ exists l, run svd uabs af p (sim_start p s0) l s).
  assert (S0 : safe (sim_start p s0)).
  { split; [now apply wf_start|]. split; [|exists []; constructor]. unfold sim_start, fill_muI. cbn [s_p]. destruct (use_mibf p); [|exact P0]. cbn [p_hist].
    rewrite Forall_map. exact P0. }
  assert (S1 : forall k s s', safe s -> advanceStep svd uabs af p (sch k) s = Ok s' -> safe (tick p s') /\ good (tick p s')).
  { intros k s s' (Ws & Fs & l & Rn) E. pose proof (C51_step_keeps_arrays G svd uabs af p (sch k) s s' n (V k) Ws E) as Ws'.
    pose proof (step_dt_pos G HG svd uabs af p (sch k) s s' Hm E) as Hdt.
    assert (K : forall i, (i < n)%nat -> exists F t h, particle_at (s_p s') i F t h /\ 0 <= h_prad h /\ (within_strength p t \/ met_special svd uabs af p (sim_start p s0) (tick p s') i)).
    { intros i Li. destruct (wf_at G s n i Ws Li) as (x & F & t & h & Hx & HP).
      destruct (step_particle G HG svd uabs af p (sch k) s s' n i x F t h (V k) Ws E Hx HP) as (L0 & o & HL & Ho & HP1).
      exists (o_F o), (o_tau o), (o_h o). split; [exact HP1|]. set (hh := if use_musl p then reset_dg h else h) in *.
      assert (U : updated svd uabs p (s_dt s') (mmul (increment (s_dt s') L0) F) t hh o) by exact (Logic.conj Sv (Logic.conj El (Logic.conj Sa (Logic.conj Hk (Logic.conj Hdt Ho))))).
      assert (Ph : 0 <= h_prad hh).
      { destruct HP as (_ & _ & Hh). rewrite Forall_forall in Fs. specialize (Fs h (nth_error_In _ _ Hh)). subst hh. destruct (use_musl p); exact Fs. }
      destruct (C70_update_partial G HG svd uabs p _ _ t hh o U Hs Ph) as (A & B). split; [exact A|].
      assert (D : special p h (pressure (trial_stress svd p (mmul (increment (s_dt s') L0) F))) \/ ~ special p h (pressure (trial_stress svd p (mmul (increment (s_dt s') L0) F)))) by (destruct (special_dec G p h (pressure (trial_stress svd p (mmul (increment (s_dt s') L0) F)))); auto).
      destruct D as [D|D].
      - right. exists l, s, (sch k), s', x, F, t, h, L0. repeat split; auto; apply HP.
      - left. apply B. intros C. apply D. subst hh. unfold special in *. destruct (use_musl p); exact C. }
    split.
    - split; [now apply wf_tick|]. rewrite tick_p. split.
      + apply Forall_forall. intros h1 Hin. apply In_nth_error in Hin. destruct Hin as (i & Hi).
        assert (Li : (i < n)%nat) by (assert (X : (i < length (p_hist (s_p s')))%nat) by (apply nth_error_Some; congruence); destruct Ws' as (C & _); destruct C; lia).
        destruct (K i Li) as (F & t & h & (_ & _ & Hh) & A & _). congruence.
      + eapply run_snoc; eauto.
    - intros i t Hi. rewrite tick_p in Hi.
      assert (Li : (i < n)%nat) by (assert (X : (i < length (p_tau (s_p s')))%nat) by (apply nth_error_Some; congruence); destruct Ws' as (C & _); destruct C; lia).
      destruct (K i Li) as (F & t' & h & (_ & Ht & _) & _ & A). assert (t = t') by congruence. subst t'. exact A. }
  assert (LP : forall fuel k s st s' ev, safe s -> sim_loop svd uabs fuel af p sch k s = Ok (st, s', ev) -> forall s2, In (EvParticles s2) ev -> good s2).
  { clear H. clear st s1 ev. induction fuel0 as [|fuel0 IH]; intros k s st s' ev Ss H s2 He; cbn [sim_loop] in H; destruct (s_frame s <? end_frame p)%Z.
    1: discriminate. 1, 3: injection H as <- <- <-; destruct He.
    apply bind_Ok in H. destruct H as (s3 & E & H). destruct (S1 _ _ _ Ss E) as (S3 & G3). destruct (s_exit s3); [injection H as <- <- <-; destruct He|].
    cbv zeta in H.
    assert (C1 : forall e, In e (save_frame p (tick p s3)) -> e = EvParticles s2 -> good s2).
    { intros e Hi ->. unfold save_frame in Hi. destruct (save_sim p); [|destruct Hi]. destruct (save_grid p); cbn in Hi; destruct Hi as [Hi|Hi]; try (assert (tick p s3 = s2) by congruence; subst s2; exact G3); repeat (destruct Hi as [Hi|Hi]; [discriminate|]); destruct Hi. }
    destruct (at_end p (tick p s3)).
    - apply Ok_inj in H. apply pair_equal_spec in H. destruct H as (_ & <-). apply in_app_or in He. destruct He as [He|He]; [|eapply C1; eauto].
      destruct (_ =? _)%Z; [destruct He|]. eapply C1; eauto.
    - apply bind_Ok in H. destruct H as ([[st2 s4] ev2] & E2 & H). cbn [fst snd] in H. apply Ok_inj in H. apply pair_equal_spec in H. destruct H as (_ & <-).
      apply in_app_or in He. destruct He as [He|He]; [|eapply IH; eauto]. destruct (_ =? _)%Z; [destruct He|]. eapply C1; eauto. }
  intros s i t He Ht. destruct (sim_cases svd uabs _ _ _ _ _ _ _ _ _ H) as [(_ & -> & ->)|(ev1 & L & ->)]; [destruct He|].
  apply in_app_or in He. destruct He as [He|He].
  - destruct (save_sim p); [|destruct He]. destruct He as [He|[He|[]]]; [discriminate|]. assert (s = sim_start p s0) by congruence. subst s.
    left. rewrite Forall_forall in T0. apply T0. apply nth_error_In with i. unfold sim_start, fill_muI in Ht. cbn [s_p] in Ht. destruct (use_mibf p); exact Ht.
  - apply in_app_or in He. destruct He as [He|He]; [exact (LP _ _ _ _ _ _ S0 L s He i t Ht)|]. destruct st; try destruct He. destruct (save_sim p); [|destruct He]. destruct He as [He|[]]. discriminate.
Qed.
Print Assumptions C70_simulation_partial.

(** ** The full claim, and where it fails *)
(** Every stress update ends within the strength of the material. *)
Definition C70_statement : Prop := forall G, two_or_three G -> forall svd uabs (p : @Par R G) dt F tau h o, updated svd uabs p dt F tau h o -> has_strength p ->
  0 <= h_prad h -> within_strength p (o_tau o).

(** A plastic material without viscosity, in 2D. *)
Definition plain_par (pm : PlasticModel) (M c : R) : @Par R (Geo2 R) :=
  {| spline := Deg2; end_frame := 1; use_pbc := false; change_pos := false; gravity_special := false;
     save_sim := true; save_grid := false; use_mibf := false; use_musl := false;
     grid_ref := vtab (fun _ => 20000000000); gravity0 := e2 0 (-10);
     min_dt := 1/100000000000000; fps := 1000; cfl := 1/2; cfl_elastic := 1/2; flip_ratio := 1;
     rho := 1000; gravity_time := 0; Lx := 1; Ly := 1; Lz := 1;
     particle_mass := 1; particle_volume := 1; dx := 1;
     elastic_model := Hencky; plastic_model := pm; hardening_law := NoHard;
     use_pradhana := true; young := 1000; nu := 3/10; stress_tolerance := 1/100000; xi := 0;
     q_max := 100; q_min := 100; p_min := -1000;
     Mfric := M; q_cohesion := c; visc_exponent := 1; visc_time := 0; use_dl := false;
     beta := 0; p0 := 1000; rho_s := 2500; grain_diameter := 1/1000; I_ref := 279/1000;
     mu_1 := 38/100; mu_2 := 64/100; q_prefac := 1; objects := [] |}.
Lemma plain_mu : forall pm M c, mu (plain_par pm M c) = 5000/13.
Proof. intros. unfold mu, plain_par; cbn [young nu]. rewrite ?nofZ_R; numR. field. Qed.
Lemma plain_K : forall pm M c, bulkK (plain_par pm M c) = 12500/13.
Proof. intros. unfold bulkK, lambda, mu, plain_par, dimA; cbn [young nu dim]. rewrite ?nofZ_R; numR. cbn. field. Qed.
Lemma plain_elastic : forall pm M c, elastic (plain_par pm M c).
Proof. intros. unfold elastic, plain_par; cbn [young nu q_prefac]. lra. Qed.
Lemma plain_updated : forall uabs pm M c a b h, 0 < M -> 0 <= c -> match pm with VM | DP | VMVisc | DPVisc | DPMui => True | _ => False end ->
  exists o, updated svdx uabs (plain_par pm M c) 1 (stretch a b) mzero h o.
Proof.
  intros uabs pm M c a b h HM Hc Hm. destruct (C46_defined_partial _ _ _ svdx uabs (plain_par pm M c) 1 (stretch a b) mzero h) as (o & E).
  { intros Hg. unfold reads_garbage in Hg. cbn in Hg. destruct pm; try contradiction; intuition discriminate. }
  exists o. split; [apply svdx_ok|]. split; [apply plain_elastic|]. split; [constructor; cbn; lra|]. split; [reflexivity|]. split; [lra|exact E].
Qed.
Lemma plain_q : forall pm M c a b, -1 <= b -> b <= a -> let p := plain_par pm M c in let S := trial_stress svdx p (stretch a b) in
  pressure S = - (12500/13) * (a + b) /\ 5000/13 * (a - b) <= shear 1 S <= 10000/13 * (a - b).
Proof.
  intros pm M c a b Hb Hab p S. destruct (stretch_trial p a b (plain_elastic pm M c) ltac:(lra) Hb) as (A & B). fold S in A, B. unfold p in A, B. rewrite plain_K in A. rewrite plain_mu in B.
  cbn [q_prefac plain_par] in B. split; [rewrite A; ring|]. rewrite B. pose proof (sqrt_half (a - b) ltac:(lra)). lra.
Qed.

(** A cohesionless viscous Drucker-Prager material (with zero viscosity) sheared without any change of
    volume keeps all of the shear stress, at zero pressure. *)
Lemma isochoric : forall uabs o, updated svdx uabs (plain_par DPVisc 1 0) 1 (stretch (1/2) (-(1/2))) mzero h0 o ->
  pressure (o_tau o) = 0 /\ 300 < shear 1 (o_tau o) /\ o_F o = stretch (1/2) (-(1/2)).
Proof.
  intros uabs o U. destruct (plain_q DPVisc 1 0 (1/2) (-(1/2))) as (A & B); try lra.
  set (p := plain_par DPVisc 1 0) in *.
  setup (Geo2 R) (or_introl eq_refl : two_or_three (Geo2 R)) U. unfold return_map in Hr. change (plastic_model p) with DPVisc in Hr. cbv iota in Hr. apply Ok_inj in Hr.
  destruct (dpv_res p El 1 (trial s) T h0 Hdt ltac:(cbn; lra) ltac:(cbn; lra) r (eq_sym Hr)) as (_ & K & _).
  assert (Z : tipd p = P p (trial s) + sh p h0).
  { rewrite <- EP, A. unfold tipd, sh, vol_shift. cbn [q_cohesion Mfric plain_par p use_pradhana h_prad h0]. lra. }
  destruct (K (or_intror Z) (or_introl Z)) as (K1 & K2 & _).
  assert (X : o_tau o = trial_stress svdx p (stretch (1/2) (-(1/2)))) by (rewrite Htau, ET, K1; reflexivity).
  rewrite X. split; [rewrite A; lra|]. split; [lra|]. rewrite HF, K2. reflexivity.
Qed.
Theorem C70_isochoric_shear_refuted : ~ C70_statement.
Proof.
  intros C. destruct (plain_updated Rabs DPVisc 1 0 (1/2) (-(1/2)) h0) as (o & U); try lra; try exact I.
  pose proof (C _ (or_introl eq_refl) svdx Rabs _ _ _ _ _ _ U (Logic.conj eq_refl eq_refl) ltac:(cbn; lra)) as W.
  destruct (isochoric Rabs o U) as (A & B & _). unfold within_strength, strength in W. cbn [plastic_model plain_par q_prefac q_cohesion Mfric] in W. rewrite A in W. lra.
Qed.
Print Assumptions C70_isochoric_shear_refuted.

(** With cohesion the mu(I) Drucker-Prager update can reverse the shear stress: it returns a shear stress
    far outside its own yield surface, at a pressure where that surface has (almost) closed. *)
Theorem C70_cohesive_mui_refuted : exists (p : @Par R (Geo2 R)) F, plastic_model p = DPMui /\ forall uabs, exists o,
  updated svdx uabs p 1 F mzero h0 o /\
  mu_2 p * (pressure (o_tau o) + q_cohesion p / mu_1 p) + stress_tolerance p < 1 /\ 20 < shear (q_prefac p) (o_tau o).
Proof.
  set (p := plain_par DPMui 1 38). set (e := 1/1000000). set (sm := (100 - e) * (13/12500)).
  exists p, (stretch (1/2 + sm) (-(1/2))). split; [reflexivity|]. intros uabs.
  destruct (plain_updated uabs DPMui 1 38 (1/2 + sm) (-(1/2)) h0) as (o & U); try lra; try exact I. fold p in U. exists o. split; [exact U|].
  destruct (plain_q DPMui 1 38 (1/2 + sm) (-(1/2))) as (A & B); try (unfold sm, e; lra). fold p in A, B.
  assert (V0 : vol_shift p h0 = 0) by (unfold vol_shift; cbn; lra).
  assert (PA : pressure (trial_stress svdx p (stretch (1/2 + sm) (-(1/2)))) = -100 + e) by (rewrite A; unfold sm; field).
  assert (QA : 384 < shear (q_prefac p) (trial_stress svdx p (stretch (1/2 + sm) (-(1/2))))) by (apply Rlt_le_trans with (5000/13 * (1/2 + sm - -(1/2))); [unfold sm, e; lra|apply B]).
  destruct (C41_dp_mui _ (or_introl eq_refl) svdx uabs p 1 _ mzero h0 o U eq_refl) as (g & q' & Hg & Vr & _ & Eq & Em & M1 & _).
  { rewrite PA, V0. cbn [q_cohesion mu_1 p plain_par]. unfold e; lra. }
  { rewrite PA, V0. eapply Rlt_trans; [|exact QA]. cbn [q_cohesion mu_1 p plain_par stress_tolerance]. unfold e; lra. }
  destruct Vr as (_ & Eq' & Ep & Es & _). rewrite Ep, Es, PA. rewrite V0, PA in *.
  split; [cbn [q_cohesion mu_1 mu_2 p plain_par stress_tolerance]; unfold e; lra|].
  change (mu_1 p) with (38/100) in *. change (mu_2 p) with (64/100) in *. change (q_cohesion p) with 38 in *.
  replace (2 * (q_prefac p)² * mu p * (g * 1)) with (10000/13 * g) in Eq' by (unfold p; rewrite plain_mu; cbn [q_prefac plain_par]; unfold Rsqr; field).
  assert (Sq : I_ref p / (grain_diameter p * sqrt (rho_s p)) * sqrt (-100 + e + 0 - - (38) / (38/100) + stress_tolerance p) < 2/100).
  { cbn [I_ref grain_diameter rho_s p plain_par stress_tolerance]. replace 2500 with (50 * 50) by lra. rewrite sqrt_square by lra.
    assert (sqrt (-100 + e + 0 - - (38) / (38 / 100) + 1 / 100000) <= 34/10000).
    { replace (34/10000) with (sqrt ((34/10000) * (34/10000))) by (rewrite sqrt_square; lra). apply sqrt_le_1_alt. unfold e. lra. }
    replace (279 / 1000 / (1 / 1000 * 50)) with (558/100) by field. lra. }
  set (S := I_ref p / (grain_diameter p * sqrt (rho_s p)) * sqrt (-100 + e + 0 - - (38) / (38/100) + stress_tolerance p)) in *.
  assert (Sp : 0 <= S) by (unfold S; apply Rmult_le_pos; [|apply sqrt_pos]; cbn [I_ref grain_diameter rho_s p plain_par]; replace 2500 with (50 * 50) by lra; rewrite sqrt_square by lra; replace (279 / 1000 / (1 / 1000 * 50)) with (558/100) by field; lra).
  assert (Gl : 4/10 <= g) by (unfold e in *; nra).
  assert (Mu : 38/100 + 24/100 <= h_muI (o_h o)).
  { rewrite Em. apply Rplus_le_compat_l. assert (0 <= S / g <= 1/20).
    { split; [apply Rmult_le_pos; [auto|apply Rlt_le, Rinv_0_lt_compat; lra]|]. apply Rmult_le_reg_r with g; [lra|]. replace (S / g * g) with S by (field; lra). lra. }
    apply Rmult_le_reg_r with (S / g + 1); [lra|]. replace ((64 / 100 - 38 / 100) / (S / g + 1) * (S / g + 1)) with (64/100 - 38/100) by (field; lra). lra. }
  clear Em. rewrite Rabs_left; unfold e in *; nra.
Qed.
Print Assumptions C70_cohesive_mui_refuted.

Lemma stress_zero : forall {G : Geo R} (HG : two_or_three G) c, pressure (mzero : TM) = 0 /\ shear c (mzero : TM) = 0.
Proof.
  intros G HG c. pose proof (geolaws G HG) as GL. assert (E : pressure (mzero : TM) = 0).
  { unfold pressure. rewrite sumd_zero; [unfold Rdiv; ring|]. intros k Hk. now autorewrite with geo. }
  split; [exact E|]. unfold shear. rewrite E. rewrite sumd_zero; [rewrite sqrt_0; ring|]. intros i Hi. apply sumd_zero. intros j Hj. autorewrite with geo. destruct (Nat.eqb i j); unfold Rsqr; ring.
Qed.
(** A simulation of a cohesionless Drucker-Prager body to which C70_simulation_partial applies. *)
Example C70_simulation_ex : forall uabs, let p := plain_par DP 1 0 in admissible_material svdx p /\ elastic_model p = Hencky /\ has_strength p /\ well_formed (ex_state p at_rest) 2 /\
  Forall (within_strength p) (p_tau (s_p (ex_state p at_rest))) /\ Forall (fun h => 0 <= h_prad h) (p_hist (s_p (ex_state p at_rest))) /\
  exists af st s1 ev, simulate svdx uabs 1 af p true (fun _ => rev_sched) (ex_state p at_rest) = Ok (st, s1, ev) /\ exists s ev', ev = EvInfo :: EvParticles s :: ev'.
Proof.
  intros uabs p. split.
  { split; [apply svdx_ok|]. split; [unfold elastic; cbn; lra|]. split; [constructor; cbn; lra|cbn; lra]. }
  split; [reflexivity|]. split; [exact I|]. split; [apply ex_wf|].
  assert (Z : within_strength p mzero).
  { unfold within_strength, strength. change (plastic_model p) with DP. cbv iota. destruct (stress_zero (or_introl eq_refl : two_or_three (Geo2 R)) (q_prefac p)) as (E1 & E2). rewrite E1, E2. cbn. lra. }
  split. { cbn. do 2 (constructor; [exact Z|]). constructor. }
  split. { cbn. repeat constructor; cbn; lra. }
  assert (Wf : well_formed (sim_start p (ex_state p at_rest)) 2) by (apply wf_start, ex_wf).
  destruct (C53_first_step_is_safe _ (or_introl eq_refl) svdx uabs p rev_sched (sim_start p (ex_state p at_rest)) 2) as (af & Hs); auto; try (cbn; lra); try lia.
  { apply rev_valid. } { now apply no_obstacles. } { apply C46_material_defined. intros Hg. unfold reads_garbage in Hg. cbn in Hg. intuition discriminate. }
  { intros x k [<-|[<-|[]]] Hk; destruct k as [|[|k]]; cbn in Hk |- *; try lia; unfold Rabs; destruct (Rcase_abs _); lra. }
  { intros k Hk X. cbn in X. lra. }
  destruct (Hs af (le_n _)) as (s1 & E & _). exists af.
  destruct (s_exit s1) eqn:Ex.
  { eexists _, _, _. split.
    - unfold simulate. cbn [negb]. change (model_ok p) with true. change (s_exit (ex_state p at_rest)) with false. cbn [negb]. cbv zeta.
      cbn [sim_loop]. change (s_frame (sim_start p (ex_state p at_rest)) <? end_frame p)%Z with true. cbn [sim_loop]. rewrite E. cbn [bind]. rewrite Ex. cbn [bind]. reflexivity.
    - cbn. eexists _, _. reflexivity. }
  destruct (step_dt_grav svdx uabs af p rev_sched _ s1 E) as (_ & _ & sp' & Em & Ed).
  destruct (step_clock svdx uabs af p rev_sched _ s1 E) as (Et & Ef & _).
  assert (T0 : s_time (sim_start p (ex_state p at_rest)) = 0) by (cbn; lra).
  assert (Sp : sp' = 0).
  { apply max_speed_spec in Em. destruct Em as (_ & (v & Hv & ->) & _). destruct Hv as [<-|[<-|[]]]; unfold vnorm, vsqnorm, vdot; cbn; replace (0 / 1 * (0 / 1) + 0 / 1 * (0 / 1)) with 0 by lra; exact sqrt_0. }
  assert (Dt : s_dt s1 = 1/1000).
  { rewrite Ed, Sp, dt_of_spec. rewrite Rabs_R0. destruct (Rlt_dec _ 0); [lra|].
    rewrite final_R, frame_dt_R. rewrite T0. change (s_frame (sim_start p (ex_state p at_rest)) + 1)%Z with 1%Z.
    cbn [fps p plain_par end_frame min_dt].
    assert (Wv : 1/1000 <= dt_max p).
    { unfold dt_max, wave_speed. numR. cbn [cfl_elastic dx rho young p plain_par]. replace (1000 / 1000) with 1 by lra. rewrite sqrt_1. lra. }
    rewrite Rmin_right by (rewrite Rmin_right; lra). rewrite Rmax_left; lra. }
  assert (Te : at_end p (tick p s1) = true).
  { apply at_end_spec. left. destruct (tick_spec p s1) as (-> & _). rewrite final_R, frame_dt_R, Et, Dt.
    rewrite T0. cbn [fps p plain_par min_dt end_frame]. rewrite Rabs_right; lra. }
  eexists _, _, _. split.
  - unfold simulate. cbn [negb]. change (model_ok p) with true. change (s_exit (ex_state p at_rest)) with false. cbn [negb]. cbv zeta.
    cbn [sim_loop]. change (s_frame (sim_start p (ex_state p at_rest)) <? end_frame p)%Z with true. cbn [sim_loop].
    rewrite E. cbn [bind]. rewrite Ex, Te. cbn [bind]. reflexivity.
  - cbn. eexists _, _. reflexivity.
Qed.
(** A stretched von Mises particle meets the hypotheses of C70_update_partial. *)
Example C70_update_ex : forall uabs h, exists o, updated svdx uabs (plain_par VM 1 0) 1 (stretch 2 1) mzero h o /\ has_strength (plain_par VM 1 0) /\
  ~ special (plain_par VM 1 0) h (pressure (trial_stress svdx (plain_par VM 1 0) (stretch 2 1))).
Proof. intros uabs h. destruct (plain_updated uabs VM 1 0 2 1 h ltac:(lra) ltac:(lra) I) as (o & Ho). exists o. split; [exact Ho|]. split; [exact I|]. intros []. Qed.
