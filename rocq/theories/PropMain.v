(** * PropMain: C69 and C71, time step against wave speed; the programs that come with the code. *)
From Coq Require Import Reals ZArith Lra Lia List Bool.
From Verif Require Import Num NumR Tools Lin Types Remesh Objects Transfer Rma Plastic Step Sampling Main Spec SpecStep SpecMech SpecPlastic SpecMaterial SpecStrength SpecWave SpecObj SvdExist LinProofs ResProofs PloopProofs PlasticProofs RmaProofs PlasticModels PlasticGlue StepProofs SpecTime TimeProofs PlateProofs GuardProofs Examples ExStep PropStep PropTime PropPlastic PropRma PropMaterial PropDefined PropError PropSample ExPlastic PropStrength.
Import ListNotations.
Local Open Scope R_scope.

(** ** C69 *)
(** The step size is limited by the time an elastic compression wave needs to cross a cell. *)
Definition C69_statement : Prop := forall (G : Geo R), two_or_three G -> forall svd uabs af p sc s0 s1,
  elastic_body p -> 0 < dx p -> 0 < cfl_elastic p -> 0 < min_dt p -> advanceStep svd uabs af p sc s0 = Ok s1 ->
  s_dt s1 <= Rmax (min_dt p) (cfl_elastic p * dx p / p_wave p).

Lemma modulus_R : forall (G : Geo R) (p : Par R), -1 < nu p < 1/2 -> wave_modulus p = lambda p + 2 * mu p.
Proof. intros G p H. unfold wave_modulus, lambda, mu. rewrite ?nofZ_R. numR. field. lra. Qed.
Lemma ratio_spec : forall (G : Geo R) (p : Par R), elastic_body p -> p_wave p = wave_ratio p * sqrt (young p / rho p) /\ 0 < wave_ratio p /\ 0 < sqrt (young p / rho p).
Proof.
  intros G p (H1 & H2 & H3 & H4 & H5). assert (A : 0 < young p / rho p) by (apply Rdiv_lt_0_compat; lra).
  assert (B : 0 < (1 - nu p) / ((1 + nu p) * (1 - 2 * nu p))) by (apply Rdiv_lt_0_compat; [lra|apply Rmult_lt_0_compat; lra]).
  split; [|split; apply sqrt_lt_R0; auto]. unfold p_wave, wave_ratio, density. rewrite H5, <- sqrt_mult by lra. f_equal. unfold wave_modulus. field. repeat split; lra.
Qed.

(** What holds: the bound exceeds the limit by the ratio of the two wave speeds, which depends on
    Poisson's ratio only and is 1 for Poisson's ratio 0; with the default safety factor 1/2 waves cross
    at most one cell per step as long as Poisson's ratio is between -0.82 and 0.45. *)
Theorem C69_elastic_limit_partial : forall (G : Geo R), two_or_three G -> forall svd uabs af p sc s0 s1,
  elastic_body p -> 0 < dx p -> 0 < cfl_elastic p -> 0 < min_dt p -> advanceStep svd uabs af p sc s0 = Ok s1 ->
  s_dt s1 <= Rmax (min_dt p) (wave_ratio p * (cfl_elastic p * dx p / p_wave p)) /\
  (nu p = 0 -> s_dt s1 <= Rmax (min_dt p) (cfl_elastic p * dx p / p_wave p)) /\
  (cfl_elastic p <= 1/2 -> -82/100 <= nu p <= 45/100 -> s_dt s1 * p_wave p <= Rmax (min_dt p * p_wave p) (dx p)).
Proof.
  intros G HG svd uabs af p sc s0 s1 Eb Hd Hc Hm H. destruct (C25_time_step_limits G HG svd uabs af p sc s0 s1 ltac:(lra) H) as (_ & D & _).
  destruct (ratio_spec G p Eb) as (R1 & R2 & R3). destruct Eb as (H1 & H2 & _).
  assert (E : wave_ratio p * (cfl_elastic p * dx p / p_wave p) = cfl_elastic p * dx p / sqrt (young p / rho p)) by (rewrite R1; field; lra).
  rewrite E. split; [exact D|]. split.
  - intros Z. rewrite <- E in D. replace (wave_ratio p) with 1 in D; [rewrite Rmult_1_l in D; exact D|]. unfold wave_ratio. rewrite Z. replace ((1 - 0) / ((1 + 0) * (1 - 2 * 0))) with 1 by field. now rewrite sqrt_1.
  - intros Hc2 Hn. assert (P0 : 0 < p_wave p) by (rewrite R1; apply Rmult_lt_0_compat; auto).
    assert (K : wave_ratio p <= 2).
    { unfold wave_ratio. apply Rle_trans with (sqrt (2 * 2)); [|rewrite sqrt_square; lra]. apply sqrt_le_1_alt.
      apply Rmult_le_reg_r with ((1 + nu p) * (1 - 2 * nu p)); [apply Rmult_lt_0_compat; lra|]. replace ((1 - nu p) / ((1 + nu p) * (1 - 2 * nu p)) * ((1 + nu p) * (1 - 2 * nu p))) with (1 - nu p) by (field; lra). nra. }
    apply Rmult_le_compat_r with (r := p_wave p) in D; [|lra]. eapply Rle_trans; [exact D|]. rewrite Rmult_comm, <- RmaxRmult by lra. rewrite !(Rmult_comm (p_wave p)). apply Rle_max_compat_l.
    replace (cfl_elastic p * dx p / sqrt (young p / rho p) * p_wave p) with (cfl_elastic p * wave_ratio p * dx p) by (rewrite R1; field; lra).
    assert (cfl_elastic p * wave_ratio p <= 1/2 * 2) by (apply Rmult_le_compat; lra). nra.
Qed.
Print Assumptions C69_elastic_limit_partial.

(** ** The settings of the shipped programs *)
Definition pi64 : R := 3141592653589793/1000000000000000.
Lemma tan_deg : forall a, 0 < a < 45 -> 0 < tan (a * pi64 / 180).
Proof. intros a Ha. apply tan_gt_0; [unfold pi64; lra|]. pose proof PI2_3_2. unfold pi64. lra. Qed.
Lemma deg_R : forall a, degrees (A := R) a = a * pi64 / 180.
Proof. intros a. unfold degrees, m_pi, pi64. rewrite nofZ_R, nofQ_R. numR. reflexivity. Qed.

Section Collapse.
  Context {G : Geo R}.
  Hypothesis HG : two_or_three G.
  Variables (deg : Spline) (junk : R).
  Notation cpar := (collapse_par tan deg junk).
  Lemma collapse_side : forall k, (k < dim)%nat -> 0 < side (collapse_before tan deg junk) k.
  Proof. intros k Hk. unfold side, collapse_before. destruct HG as [->| ->]; destruct k as [|[|[|k]]]; cbn in *; try lia; lra. Qed.
  Lemma ppc_pos : 0 < (default_ppc : R).
  Proof. unfold default_ppc. rewrite !nofZ_R. destruct HG as [->| ->]; cbn; lra. Qed.
  Lemma collapse_sample : forall samples, samples <> [] -> let sm := collapse_sampled tan deg junk samples in
    0 < sa_dx sm /\ default_ppc * sa_vol sm = pow_dim (sa_dx sm) /\ 0 < sa_vol sm /\ sa_mass sm = 1000 * sa_vol sm /\ p_x (sa_p sm) = samples /\ pristine (sa_p sm) (length samples).
  Proof.
    intros samples Hn. cbv zeta. destruct (C49_random_sampling G HG (collapse_before tan deg junk) default_ppc 0 samples ppc_pos Hn collapse_side) as (A & B & C & D & _ & E & F & _).
    specialize (E eq_refl). fold (collapse_sampled tan deg junk samples) in *. set (sm := collapse_sampled tan deg junk samples) in *. rewrite E in F. split; [exact B|]. split; [exact C|].
    assert (0 < sa_vol sm).
    { apply Rmult_lt_reg_l with (INR (length samples)); [apply lt_0_INR; destruct samples; [contradiction|cbn; lia]|]. rewrite Rmult_0_r, A. unfold box_volume.
      pose proof collapse_side as X. unfold side, collapse_before in *. destruct HG as [->| ->]; cbn; lra. }
    split; [auto|]. split; [|auto]. rewrite D. unfold collapse_before. cbn [rho]. rewrite nofZ_R. reflexivity.
  Qed.
  Lemma collapse_elastic : forall samples, elastic (cpar samples).
  Proof. intros. unfold elastic, collapse_par, collapse_before, new_simulation. cbn [young nu q_prefac]. rewrite ?nofZ_R, ?nofQ_R. numR. pose proof (Rlt_sqrt2_0). split; [lra|]. split; [lra|]. apply Rdiv_lt_0_compat; lra. Qed.
  Lemma collapse_sane : forall samples, sane (cpar samples).
  Proof.
    intros. constructor; unfold collapse_par, collapse_before, new_simulation; cbn [Mfric q_cohesion xi q_min q_max visc_time visc_exponent mu_1 mu_2 I_ref grain_diameter rho_s stress_tolerance p0 beta]; rewrite ?deg_R, ?nofZ_R, ?nofQ_R; numR; try lra.
    - apply tan_deg; lra.
    - apply tan_deg; lra.
    - apply Rlt_le, tan_increasing; unfold pi64; pose proof PI2_3_2; lra.
  Qed.
  Lemma collapse_clock : forall samples, clock_ok (cpar samples).
  Proof. intros. unfold clock_ok, collapse_par, collapse_before, new_simulation; cbn. lra. Qed.
End Collapse.

(** A viscous Drucker-Prager material with exponent 1 never reports an error. *)
Lemma dpv_no_error : forall G, two_or_three G -> forall svd uabs p dt F tau h o, updated svd uabs p dt F tau h o -> plastic_model p = DPVisc -> visc_exponent p = 1 -> o_exit o = false.
Proof.
  intros G HG svd uabs p dt F tau h o H Pm N. setup G HG H. rewrite Hex. unfold return_map in Hr. rewrite Pm in Hr. apply Ok_inj in Hr. destruct Sa.
  destruct (dpv_res p El dt (trial s) T h Hdt sa_visc sa_M r (eq_sym Hr)) as (K0 & K1 & _ & K2).
  destruct (Rtotal_order (P p (trial s) + sh p h) (tipd p)) as [L|[L|L]].
  - apply (K0 L).
  - apply K1; [lra|left; auto].
  - destruct (Rle_lt_dec (Q p (trial s)) (dy p (trial s) h)) as [L2|L2]; [apply K1; [lra|right; auto]|].
    destruct (K2 L L2) as (g & _ & _ & _ & _ & _ & E & _). apply (E N).
Qed.
Lemma dpv_step_no_error : forall G, two_or_three G -> forall svd uabs af p sc s0 s1 n, admissible_material svd p -> elastic_model p = Hencky -> plastic_model p = DPVisc -> visc_exponent p = 1 ->
  valid_sched sc -> well_formed s0 n -> s_exit s0 = false -> advanceStep svd uabs af p sc s0 = Ok s1 -> s_exit s1 = false.
Proof.
  intros G HG svd uabs af p sc s0 s1 n (Sv & El & Sa & Hm) Hk Pm N V W E0 E. pose proof (step_dt_pos G HG svd uabs af p sc s0 s1 Hm E) as Hdt.
  destruct (C28_error_is_detected G HG svd uabs af p sc s0 s1 n V W E) as (outs & Ln & K & X). destruct (s_exit s1); [|reflexivity].
  destruct (proj1 X eq_refl) as [C|(i & o & Hi & C)]; [congruence|].
  assert (Li : (i < n)%nat) by (rewrite <- Ln; apply nth_error_Some; congruence). destruct (wf_at G s0 n i W Li) as (x & F & t & h & Hx & HP).
  destruct (K i x F t h Hx HP) as (L & o' & Ho & _ & Hp & _). assert (o' = o) by congruence. subst o'.
  rewrite (dpv_no_error G HG svd uabs p (s_dt s1) _ _ _ o (Logic.conj Sv (Logic.conj El (Logic.conj Sa (Logic.conj Hk (Logic.conj Hdt Hp))))) Pm N) in C. discriminate.
Qed.

Lemma in_files : forall (G : Geo R) ev (s : St R), In s (particle_files ev) <-> In (EvParticles s) ev.
Proof.
  intros G ev s. unfold particle_files. rewrite in_flat_map. split.
  - intros (e & He & Hs). destruct e; cbn in Hs; try contradiction. destruct Hs as [<-|[]]. exact He.
  - intros H. exists (EvParticles s). split; [exact H|]. now left.
Qed.

Lemma loop_status : forall (G : Geo R) svd uabs fuel af (p : Par R) sch k s st s' ev, sim_loop svd uabs fuel af p sch k s = Ok (st, s', ev) -> st = Finished \/ st = Aborted.
Proof.
  intros G svd uabs. induction fuel as [|fuel IH]; intros af p sch k s st s' ev H; cbn [sim_loop] in H; destruct (s_frame s <? end_frame p)%Z; try discriminate; try (injection H as <- <- <-; auto; fail).
  apply bind_Ok in H. destruct H as (s1 & _ & H). destruct (s_exit s1); [injection H as <- <- <-; auto|]. cbv zeta in H.
  destruct (at_end p (tick p s1)); [injection H as <- <- <-; auto|]. apply bind_Ok in H. destruct H as ([[st2 s2] ev2] & L & H). cbn [fst snd] in H. injection H as <- <- <-. eauto.
Qed.


(** ** C71 *)
(** mpm.cpp (collapse.cpp): for every set of sampled points, every schedule and every SVD: a run that
    comes to an end has ended normally, has written frames 0 to 20 and the last one again, each on
    time (20 frames of 0.1 s), each with all particles; and in every frame the shear stress of every
    particle is within the friction angle of 30 degrees -- except for particles whose trial pressure
    hit the tip of the cone exactly (see C70_isochoric_shear_refuted). *)
Theorem C71_collapse_program : forall G, two_or_three G -> forall deg junk svd uabs fuel af sch (samples : list TV) st s1 ev,
  svd_ok svd -> (forall k, valid_sched (sch k)) -> samples <> [] -> (Z.of_nat (length samples) <= 2147483647)%Z ->
  collapse_main svd uabs tan deg junk fuel af sch samples = Ok (st, s1, ev) ->
  st = Finished /\
  map s_frame (particle_files ev) = frames_upto 20 ++ [20%Z] /\
  forall s, In s (particle_files ev) ->
    (s_frame s = 0%Z /\ s_time s = 0 \/
     (1 <= s_frame s)%Z /\ IZR (s_frame s) / 10 - 11/10 * (1/100000000000000) < s_time s <= IZR (s_frame s) / 10) /\
    well_formed s (length samples) /\
    forall i t, nth_error (p_tau (s_p s)) i = Some t ->
      shear (1 / sqrt 2) t <= tan (30 * pi64 / 180) * pressure t \/
      met_special svd uabs af (collapse_par tan deg junk samples) (sim_start (collapse_par tan deg junk samples) (collapse_state tan deg junk samples)) s i.
Proof.
  intros G HG deg junk svd uabs fuel af sch samples st s1 ev Sv V Hn Hl H. unfold collapse_main in H.
  set (p := collapse_par tan deg junk samples) in *. set (s0 := collapse_state tan deg junk samples) in *.
  destruct (collapse_sample HG deg junk samples Hn) as (_ & _ & _ & _ & Px & (Pc & Pv & PF & Pt & PB & Ph)).
  assert (Am : admissible_material svd p) by (split; [exact Sv|]; split; [apply collapse_elastic|]; split; [apply collapse_sane|cbn; lra]).
  assert (W : well_formed s0 (length samples)).
  { split; [|split; [|exact Hl]].
    - unfold s0, collapse_state, initial_state, with_x. cbn [s_p]. destruct Pc. split; cbn [p_x p_v p_pic p_flip p_hist p_F p_B p_tau]; rewrite ?map_length; auto.
    - unfold s0, collapse_state, initial_state, with_x. cbn [s_Np p_x]. rewrite map_length, Px. reflexivity. }
  assert (Vx : visc_exponent p = 1) by (cbn; lra). assert (Vt : visc_time p = 0) by (cbn; lra).
  assert (Fin : st = Finished).
  { pose proof H as H'. unfold simulate in H'. cbn [negb] in H'. change (model_ok p) with true in H'. change (s_exit s0) with false in H'. cbn [negb] in H'. cbv zeta in H'.
    apply bind_Ok in H'. destruct H' as ([[st1 s2] ev1] & L & H'). apply Ok_inj in H'. assert (E : st1 = st /\ s2 = s1) by (apply pair_equal_spec in H'; destruct H' as (H' & _); apply pair_equal_spec in H'; exact H').
    destruct E as (-> & ->). clear H'.
    destruct (loop_inv svd uabs (fun s => well_formed s (length samples) /\ s_exit s = false) af p sch
      (fun k s s' Ws E => Logic.conj (C51_step_keeps_arrays G svd uabs af p (sch k) s s' _ (V k) (proj1 Ws) E)
         (dpv_step_no_error G HG svd uabs af p (sch k) s s' _ Am eq_refl eq_refl Vx (V k) (proj1 Ws) (proj2 Ws) E))
      (fun s Ws => Logic.conj (wf_tick G p s _ (proj1 Ws)) (eq_trans (proj1 (proj2 (tick_spec p s))) (proj2 Ws))) _ _ _ _ _ _ (Logic.conj (wf_start _ p s0 _ W) eq_refl) L) as ((_ & X) & _).
    destruct (C28_no_frame_after_error G svd uabs fuel af p true sch s0 st s1 ev eq_refl H) as (_ & Y & _).
    destruct (loop_status G svd uabs fuel af p sch 0 _ _ _ _ L) as [->| ->]; [reflexivity|]. rewrite (proj2 Y eq_refl) in X. discriminate. }
  subst st. split; [reflexivity|].
  destruct (C26_frames_complete_ordered_on_time G HG svd uabs fuel af p true sch s0 s1 ev (collapse_clock deg junk samples) eq_refl ltac:(cbn; lia) H) as (F1 & F2).
  split; [exact F1|]. intros s Hs. split; [|split].
  - destruct (F2 s Hs) as [A|(A & B)]; [left; exact A|right]. split; [exact A|]. assert (E1 : fps p = 10) by (cbn; lra). assert (E2 : min_dt p = 1/100000000000000) by (cbn; lra). rewrite E1, E2 in B. exact B.
  - apply in_files in Hs. destruct (C51_simulation_keeps_arrays G svd uabs fuel af p true sch s0 _ _ _ _ V W H) as (_ & K). apply K. now left.
  - intros i t Ht. apply in_files in Hs.
    assert (T0 : forall t, In t (p_tau (s_p s0)) -> t = mzero) by (intros t' H'; apply Pt; exact H').
    assert (H0 : forall h, In h (p_hist (s_p s0)) -> h = mkHist 0 0 0 0 0 0) by (intros h' H'; apply Ph; exact H').
    assert (Z : pressure (mzero : TM) = 0 /\ shear (1 / sqrt 2) (mzero : TM) = 0) by exact (stress_zero HG (1 / sqrt 2)).
    assert (E1 : q_prefac p = 1 / sqrt 2) by (unfold p, collapse_par; cbn [q_prefac]; rewrite !nofZ_R; numR; reflexivity).
    assert (E2 : Mfric p = tan (30 * pi64 / 180)) by (unfold p, collapse_par; cbn [Mfric]; rewrite deg_R, nofZ_R; reflexivity).
    assert (E3 : q_cohesion p = 0) by (unfold p, collapse_par; cbn [q_cohesion]; rewrite nofZ_R; reflexivity).
    assert (S : forall t, within_strength p t <-> shear (1 / sqrt 2) t <= tan (30 * pi64 / 180) * pressure t).
    { intros t'. unfold within_strength, strength. change (plastic_model p) with DPVisc. rewrite E1, E2, E3, Rplus_0_l. reflexivity. }
    destruct (C70_simulation_partial G HG svd uabs fuel af p true sch s0 (length samples) Finished s1 ev Am eq_refl (Logic.conj Vt Vx) V W) with (s := s) (i := i) (t := t) as [A|A]; auto.
    + apply Forall_forall. intros t' Ht'. rewrite (T0 _ Ht'). apply S. destruct Z as (-> & ->). lra.
    + apply Forall_forall. intros h Hh. rewrite (H0 _ Hh). cbn. lra.
    + left. now apply S.
Qed.
Print Assumptions C71_collapse_program.

Lemma INR_above : forall x, exists n, x <= INR n.
Proof.
  intros x. destruct (archimed x) as (A & _). exists (Z.to_nat (up x)). rewrite INR_IZR_INZ. destruct (Z_le_gt_dec 0 (up x)); [rewrite Z2Nat.id by lia; lra|].
  assert (IZR (up x) <= 0) by (apply IZR_le; lia). assert (0 <= IZR (Z.of_nat (Z.to_nat (up x)))) by (apply IZR_le; lia). lra.
Qed.
(** The program comes to an end: a bound on the number of steps. *)
Theorem C71_collapse_terminates : forall G, two_or_three G -> forall deg junk svd uabs sch (samples : list TV), samples <> [] ->
  exists fuel af0, forall af, (af0 <= af)%nat -> collapse_main svd uabs tan deg junk fuel af sch samples <> NoFuel.
Proof.
  intros G HG deg junk svd uabs sch samples Hn. destruct (collapse_sample HG deg junk samples Hn) as (Hd & _). set (p := collapse_par tan deg junk samples).
  destruct (INR_above (IZR (end_frame p) / fps p / min_dt p)) as (fuel & Hf). exists fuel.
  apply (C27_simulations_terminate G HG svd uabs p true sch _ fuel Hd); [intros o []|apply collapse_clock|].
  assert (M : 0 < min_dt p) by (cbn; lra). apply Rmult_le_reg_r with (/ min_dt p); [now apply Rinv_0_lt_compat|].
  replace (INR fuel * min_dt p * / min_dt p) with (INR fuel) by (field; lra). unfold Rdiv in *. lra.
Qed.
Print Assumptions C71_collapse_terminates.

(** Its grid spacing. *)
Lemma collapse_dx : forall G (HG : two_or_three G) deg junk (samples : list TV), samples <> [] -> (Z.of_nat (length samples) <= 2147483647)%Z ->
  1/100000 <= dx (collapse_par tan deg junk samples) <= 4.
Proof.
  intros G HG deg junk samples Hn Hl.
  destruct (C49_random_sampling G HG (collapse_before tan deg junk) default_ppc 0 samples (ppc_pos HG) Hn (collapse_side HG deg junk)) as (A & B & C & _). cbv zeta in A, B, C.
  fold (collapse_sampled tan deg junk samples) in *. change (dx (collapse_par tan deg junk samples)) with (sa_dx (collapse_sampled tan deg junk samples)).
  set (d := sa_dx (collapse_sampled tan deg junk samples)) in *. set (v := sa_vol (collapse_sampled tan deg junk samples)) in *.
  assert (N1 : 1 <= INR (length samples)) by (change 1 with (INR 1); apply le_INR; destruct samples; [contradiction|cbn; lia]).
  assert (N2 : INR (length samples) <= 2147483647) by (rewrite INR_IZR_INZ; apply IZR_le; exact Hl).
  assert (Vp : 0 < v) by apply (collapse_sample HG deg junk samples Hn).
  clearbody d v. set (N := INR (length samples)) in *. clearbody N. unfold box_volume, side, collapse_before, default_ppc, pow_dim in *. rewrite ?nofZ_R in *.
  destruct HG as [EG|EG]; subst G; cbn in A, C.
  - assert (E1 : N * (d * d) = 6) by (transitivity (6 * (N * v)); [replace (d * d) with (6 * v) by lra; ring|lra]). split; apply Rnot_lt_le; intros X.
    + assert (d * d < 1/100000 * (1/100000)) by nra. nra.
    + assert (16 < d * d) by nra. nra.
  - assert (E1 : N * (d * d * d) = 40) by (transitivity (8 * (N * v)); [replace (d * d * d) with (8 * v) by lra; ring|lra]). split; apply Rnot_lt_le; intros X.
    + assert (X2 : d * d < 1/100000 * (1/100000)) by nra. assert (0 < d * d) by nra. assert (d * d * d < 1/100000 * (1/100000) * (1/100000)) by nra. nra.
    + assert (16 < d * d) by nra. assert (64 < d * d * d) by nra. nra.
Qed.

Lemma sqrt1000 : 31 < sqrt 1000 < 32.
Proof.
  split.
  - rewrite <- (sqrt_square 31) by lra. apply sqrt_lt_1; lra.
  - rewrite <- (sqrt_square 32) by lra. apply sqrt_lt_1; lra.
Qed.
Lemma collapse_wf : forall G (HG : two_or_three G) deg junk (samples : list TV), samples <> [] -> (Z.of_nat (length samples) <= 2147483647)%Z ->
  well_formed (collapse_state tan deg junk samples) (length samples).
Proof.
  intros G HG deg junk samples Hn Hl. destruct (collapse_sample HG deg junk samples Hn) as (_ & _ & _ & _ & Px & (Pc & _)). split; [|split; [|exact Hl]].
  - unfold collapse_state, initial_state, with_x. cbn [s_p]. destruct Pc. split; cbn [p_x p_v p_pic p_flip p_hist p_F p_B p_tau]; rewrite ?map_length; auto.
  - unfold collapse_state, initial_state, with_x. cbn [s_Np p_x]. rewrite map_length, Px. reflexivity.
Qed.
(** The first step of the program, for points in the box: it is safe. *)
Theorem C71_collapse_first_step : forall G, two_or_three G -> forall deg junk svd uabs sc (samples : list TV), valid_sched sc ->
  samples <> [] -> (Z.of_nat (length samples) <= 2147483647)%Z -> 1/20 <= dx (collapse_par tan deg junk samples) ->
  (forall x k, In x samples -> (k < dim)%nat -> 0 <= vget x k <= side (collapse_par tan deg junk samples) k) ->
  let s0 := sim_start (collapse_par tan deg junk samples) (collapse_state tan deg junk samples) in
  exists af0, forall af, (af0 <= af)%nat -> exists s1, advanceStep svd uabs af (collapse_par tan deg junk samples) sc s0 = Ok s1.
Proof.
  intros G HG deg junk svd uabs sc samples V Hn Hl Hd Hb s0. pose proof (geolaws G HG) as GL. destruct (collapse_sample HG deg junk samples Hn) as (_ & _ & _ & _ & Px & _).
  pose proof (collapse_dx G HG deg junk samples Hn Hl) as D. set (p := collapse_par tan deg junk samples) in *.
  destruct (C53_first_step_is_safe G HG svd uabs p sc s0 (length samples)) as (af0 & K); auto.
  - lra.
  - apply wf_start. now apply collapse_wf.
  - destruct samples; [contradiction|cbn; lia].
  - intros o X [].
  - apply C46_material_defined. intros Hg. unfold reads_garbage in Hg. cbn in Hg. intuition discriminate.
  - intros x k Hx Hk. assert (Hx' : In x (map (collapse_x p) samples)).
    { unfold s0, sim_start, fill_muI, collapse_state, initial_state, with_x in Hx. cbn [s_p use_mibf p collapse_par collapse_before new_simulation p_x] in Hx. rewrite Px in Hx. exact Hx. }
    apply in_map_iff in Hx'. destruct Hx' as (y & <- & Hy). specialize (Hb y k Hy Hk). clear Hx. unfold collapse_x. cbv zeta. rewrite nofQ_R. numR.
    unfold side in Hb.
    assert (L1 : Lx p = 1) by (cbn; lra). assert (L2 : Ly p = 1) by (cbn; lra). assert (L3 : Lz p <= 5) by (destruct HG as [EG|EG]; subst G; cbn; lra). rewrite L1, L2 in *. clearbody p.
    assert (D2 : (1 < dim)%nat) by (destruct HG as [->| ->]; cbn; lia). rewrite !vget_set by (auto; lia).
    assert (M : 0 <= vget y k <= 5 /\ ((k <= 1)%nat -> vget y k <= 1)).
    { destruct k as [|[|k]]; (split; [|intros]); try lia; try lra. }
    destruct M as (M1 & M2). destruct k as [|[|k]]; cbn [Nat.eqb]; try specialize (M2 ltac:(lia)); apply Rabs_le; lra.
  - intros k Hk _. change (grid_ref p) with (vzero : TV). autorewrite with geo; auto. rewrite Rabs_R0. lra.
  - exists af0. intros af Ha. destruct (K af Ha) as (s1 & E & _). eauto.
Qed.
Print Assumptions C71_collapse_first_step.

(** ** C69: the shipped program breaks the limit *)
Lemma collapse_body : forall G (HG : two_or_three G) deg junk (samples : list TV), samples <> [] -> elastic_body (collapse_par tan deg junk samples).
Proof.
  intros G HG deg junk samples Hn. destruct (collapse_sample HG deg junk samples Hn) as (_ & _ & Hv & Hm & _).
  split; [cbn; lra|]. split; [cbn; lra|]. split; [cbn; lra|]. split; [exact Hv|].
  change (particle_mass (collapse_par tan deg junk samples)) with (sa_mass (collapse_sampled tan deg junk samples)).
  change (particle_volume (collapse_par tan deg junk samples)) with (sa_vol (collapse_sampled tan deg junk samples)). rewrite Hm. cbn [rho collapse_par collapse_before]. rewrite nofZ_R. reflexivity.
Qed.
(** Every first step of the program, whatever the samples, is at least 15 percent longer than the limit. *)
Theorem C69_shipped_program : forall G, two_or_three G -> forall deg junk svd uabs af sc (samples : list TV) s1,
  samples <> [] -> (Z.of_nat (length samples) <= 2147483647)%Z ->
  let p := collapse_par tan deg junk samples in
  advanceStep svd uabs af p sc (sim_start p (collapse_state tan deg junk samples)) = Ok s1 ->
  115/100 * Rmax (min_dt p) (cfl_elastic p * dx p / p_wave p) < s_dt s1.
Proof.
  intros G HG deg junk svd uabs af sc samples s1 Hn Hl p E. pose proof (geolaws G HG) as GL. destruct (collapse_sample HG deg junk samples Hn) as (_ & _ & _ & _ & Px & (_ & Pv & _)).
  pose proof (collapse_dx G HG deg junk samples Hn Hl) as D. fold p in D.
  destruct (step_dt svd uabs af p sc _ s1 E) as (sp & Es & Ed). apply max_speed_spec in Es. destruct Es as (_ & (v & Hv & ->) & _).
  assert (v = vzero) by (apply Pv; exact Hv). subst v.
  assert (N0 : vnorm (vzero : TV) = 0) by apply vnorm_zero.
  rewrite N0 in Ed. rewrite dt_of_spec, Rabs_R0 in Ed. destruct (Rlt_dec _ 0) as [X|_]; [lra|].
  rewrite final_R, frame_dt_R in Ed. cbn [s_time s_frame sim_start] in Ed.
  assert (Z0 : (#0 : R)%num = 0) by apply nofZ_R. rewrite Z0 in Ed.
  assert (E1 : fps p = 10) by (cbn; lra). assert (E2 : min_dt p = 1/100000000000000) by (cbn; lra). assert (E3 : cfl_elastic p = 1/2) by (cbn; lra).
  assert (E4 : dt_max p = 1/2 * dx p / sqrt 1000).
  { unfold dt_max, wave_speed. numR. rewrite E3. f_equal. f_equal. cbn. lra. }
  change (end_frame p) with 20%Z in Ed. rewrite E1, E2, E4 in Ed. pose proof sqrt1000 as Sq.
  assert (Q : 1/10000000 <= 1/2 * dx p / sqrt 1000 <= 1/10).
  { split; apply Rmult_le_reg_r with (sqrt 1000); try lra; replace (1/2 * dx p / sqrt 1000 * sqrt 1000) with (1/2 * dx p) by (field; lra); lra. }
  rewrite E2, E3. rewrite Rmin_left in Ed; [|rewrite Rmin_left]; try (cbn [Z.add] in *; lra).
  rewrite Rmin_left, Rmax_left in Ed by (cbn [Z.add] in *; lra). rewrite Ed.
  destruct (ratio_spec G p (collapse_body G HG deg junk samples Hn)) as (R1 & R2 & R3).
  assert (E5 : sqrt (young p / rho p) = sqrt 1000) by (f_equal; cbn; lra). rewrite E5 in *.
  assert (K : 116/100 < wave_ratio p).
  { unfold wave_ratio. replace (nu p) with (3/10) by (cbn; lra). rewrite <- (sqrt_square (116/100)) by lra. apply sqrt_lt_1; lra. }
  rewrite R1. unfold Rmax. destruct (Rle_dec _ _); [|lra].
  replace (1 / 2 * dx p / (wave_ratio p * sqrt 1000)) with (/ wave_ratio p * (1 / 2 * dx p / sqrt 1000)) by (field; lra).
  assert (115/100 * / wave_ratio p < 1) by (apply Rmult_lt_reg_r with (wave_ratio p); [lra|]; rewrite Rmult_assoc, Rinv_l by lra; lra). nra.
Qed.
Print Assumptions C69_shipped_program.

Theorem C69_elastic_limit_refuted : ~ C69_statement.
Proof.
  intros C. set (samples := [e2 (1/2) (1/2)]). set (p := collapse_par (G := Geo2 R) tan Deg2 0 samples).
  assert (HG : two_or_three (Geo2 R)) by (left; reflexivity). assert (Hn : samples <> []) by discriminate.
  assert (Hl : (Z.of_nat (length samples) <= 2147483647)%Z) by (cbn; lia).
  assert (Hd : 1/20 <= dx p).
  { unfold p, collapse_par. cbn [dx]. unfold collapse_sampled, sample. cbn. apply Rle_trans with (sqrt 1); [rewrite sqrt_1; lra|]. apply sqrt_le_1_alt. lra. }
  destruct (C71_collapse_first_step _ HG Deg2 0 svdx Rabs seq_sched samples seq_valid Hn Hl Hd) as (af & K).
  { intros x k [<-|[]] Hk. destruct k as [|[|k]]; cbn in Hk |- *; try lia; lra. }
  destruct (K af (le_n _)) as (s1 & E). pose proof (C69_shipped_program _ HG Deg2 0 svdx Rabs af seq_sched samples s1 Hn Hl E) as A. fold p in A.
  pose proof (C _ HG svdx Rabs af p seq_sched _ s1 (collapse_body _ HG Deg2 0 samples Hn) ltac:(fold p in Hd; lra) ltac:(cbn; lra) ltac:(cbn; lra) E) as B.
  assert (0 < Rmax (min_dt p) (cfl_elastic p * dx p / p_wave p)) by (eapply Rlt_le_trans; [|apply Rmax_l]; cbn; lra). lra.
Qed.
Print Assumptions C69_elastic_limit_refuted.

(** ** cube_rotating.cpp *)
(** The program sets the density after the particles have been sampled: the material has density
    1000, but the time step is computed for density 1550. *)
Section Rotating.
  Context {G : Geo R}.
  Hypothesis HG : two_or_three G.
  Variables (deg : Spline) (junk : R).
  Lemma rotating_side : forall k, (k < dim)%nat -> 0 < side (rotating_before tan deg junk) k.
  Proof. intros k Hk. unfold side, rotating_before. destruct HG as [->| ->]; destruct k as [|[|[|k]]]; cbn in *; try lia; lra. Qed.
  Lemma rotating_sample : forall samples, samples <> [] -> let sm := rotating_sampled tan deg junk samples in
    0 < sa_dx sm /\ 0 < sa_vol sm /\ sa_mass sm = 1000 * sa_vol sm /\ p_x (sa_p sm) = samples /\ pristine (sa_p sm) (length samples).
  Proof.
    intros samples Hn. cbv zeta. destruct (C49_random_sampling G HG (rotating_before tan deg junk) default_ppc 0 samples (ppc_pos HG) Hn rotating_side) as (A & B & C & D & _ & E & F & _).
    specialize (E eq_refl). fold (rotating_sampled tan deg junk samples) in *. set (sm := rotating_sampled tan deg junk samples) in *. rewrite E in F. split; [exact B|].
    assert (0 < sa_vol sm).
    { apply Rmult_lt_reg_l with (INR (length samples)); [apply lt_0_INR; destruct samples; [contradiction|cbn; lia]|]. rewrite Rmult_0_r, A. unfold box_volume.
      pose proof rotating_side as X. unfold side, rotating_before in *. destruct HG as [->| ->]; cbn; lra. }
    split; [auto|]. split; [|auto]. rewrite D. unfold rotating_before, new_simulation. cbn [rho]. rewrite nofZ_R. reflexivity.
  Qed.
End Rotating.
Theorem C69_rotating_density_refuted : forall G, two_or_three G -> forall deg junk (samples : list TV), samples <> [] ->
  let p := rotating_par tan deg junk samples in density p = 1000 /\ rho p = 1550 /\
  forall svd uabs af sc s0 s1, advanceStep svd uabs af p sc s0 = Ok s1 ->
    s_dt s1 <= Rmax (min_dt p) (cfl_elastic p * dx p / sqrt (young p / 1550)).
Proof.
  intros G HG deg junk samples Hn p. destruct (rotating_sample HG deg junk samples Hn) as (_ & Hv & Hm & _).
  split; [|split].
  - unfold density. change (particle_mass p) with (sa_mass (rotating_sampled tan deg junk samples)). change (particle_volume p) with (sa_vol (rotating_sampled tan deg junk samples)).
    rewrite Hm. field. lra.
  - cbn; lra.
  - intros svd uabs af sc s0 s1 E. destruct (C25_time_step_limits G HG svd uabs af p sc s0 s1 ltac:(cbn; lra) E) as (_ & D & _).
    replace 1550 with (rho p) by (cbn; lra). exact D.
Qed.
Print Assumptions C69_rotating_density_refuted.

Theorem C71_rotating_program : forall G, two_or_three G -> forall deg junk svd uabs fuel af sch (samples : list TV) st s1 ev,
  (forall k, valid_sched (sch k)) -> samples <> [] -> (Z.of_nat (length samples) <= 2147483647)%Z ->
  rotating_main svd uabs tan deg junk fuel af sch samples = Ok (st, s1, ev) ->
  st = Finished /\
  map s_frame (particle_files ev) = frames_upto 20 ++ [20%Z] /\
  forall s, In s (particle_files ev) ->
    (s_frame s = 0%Z /\ s_time s = 0 \/
     (1 <= s_frame s)%Z /\ IZR (s_frame s) - 11/10 * (1/100000000000000) < s_time s <= IZR (s_frame s)) /\
    well_formed s (length samples) /\
    forall h, In h (p_hist (s_p s)) -> h_dev h = 0 /\ h_vol h = 0.
Proof.
  intros G HG deg junk svd uabs fuel af sch samples st s1 ev V Hn Hl H. unfold rotating_main in H.
  set (p := rotating_par tan deg junk samples) in *. set (s0 := rotating_state tan deg junk samples) in *.
  destruct (rotating_sample HG deg junk samples Hn) as (_ & _ & _ & Px & (Pc & _ & _ & _ & _ & Ph)).
  assert (W : well_formed s0 (length samples)).
  { unfold s0, rotating_state, initial_state. split; [|split; [|exact Hl]].
    - cbn [s_p]. destruct Pc. split; cbn [p_x p_v p_pic p_flip p_hist p_F p_B p_tau]; rewrite ?map_length, ?combine_length, ?map_length; auto. rewrite Px. lia.
    - cbn [s_Np p_x]. rewrite map_length, Px. reflexivity. }
  set (I0 := fun s : St R => (well_formed s (length samples) /\ s_exit s = false) /\ forall h, In h (p_hist (s_p s)) -> h_dev h = 0 /\ h_vol h = 0).
  assert (Np : forall dt F tau h o, plasticity svd uabs p dt F tau h = Ok o -> o_exit o = false /\ h_dev (o_h o) = h_dev h /\ h_vol (o_h o) = h_vol h).
  { intros dt F tau h o Ho. apply plast_inv in Ho. destruct Ho as (U & sg & Vv & r & _ & Hr & _ & _ & -> & _ & ->). unfold return_map in Hr. change (plastic_model p) with NoPlasticity in Hr. cbv iota in Hr. apply Ok_inj in Hr. subst r. auto. }
  assert (B1 : forall k s s', I0 s -> advanceStep svd uabs af p (sch k) s = Ok s' -> I0 s').
  { intros k s s' ((Ws & Xs) & Hs) E. pose proof (C51_step_keeps_arrays G svd uabs af p (sch k) s s' _ (V k) Ws E) as Ws'.
    destruct (C28_error_is_detected G HG svd uabs af p (sch k) s s' _ (V k) Ws E) as (outs & Ln & K & X). split; [split; [exact Ws'|]|].
    - destruct (s_exit s'); [|reflexivity]. destruct (proj1 X eq_refl) as [C|(i & o & Hi & C)]; [congruence|].
      assert (Li : (i < length samples)%nat) by (rewrite <- Ln; apply nth_error_Some; congruence). destruct (wf_at G s _ i Ws Li) as (x & F & t & h & Hx & HP).
      destruct (K i x F t h Hx HP) as (L & o' & Ho & _ & Hp & _). assert (o' = o) by congruence. subst o'. destruct (Np _ _ _ _ _ Hp) as (Y & _). congruence.
    - intros h1 Hin. apply In_nth_error in Hin. destruct Hin as (i & Hi).
      assert (Li : (i < length samples)%nat) by (assert (Y : (i < length (p_hist (s_p s')))%nat) by (apply nth_error_Some; congruence); destruct Ws' as (C & _); destruct C; lia).
      destruct (wf_at G s _ i Ws Li) as (x & F & t & h & Hx & HP). destruct (K i x F t h Hx HP) as (L & o & _ & _ & Hp & (_ & _ & Hh)). assert (h1 = o_h o) by congruence. subst h1.
      destruct (Np _ _ _ _ _ Hp) as (_ & -> & ->). change (use_musl p) with false. cbv iota. apply Hs. destruct HP as (_ & _ & HP). eapply nth_error_In; eauto. }
  assert (B2 : forall s, I0 s -> I0 (tick p s)).
  { intros s ((Ws & Xs) & Hs). split; [split; [now apply wf_tick|exact (eq_trans (proj1 (proj2 (tick_spec p s))) Xs)]|]. rewrite tick_p. exact Hs. }
  assert (B0 : I0 (sim_start p s0)).
  { split; [split; [now apply wf_start|reflexivity]|]. intros h Hh. unfold sim_start, fill_muI in Hh. change (use_mibf p) with false in Hh. cbn [s_p] in Hh. rewrite (Ph h Hh). auto. }
  pose proof H as H'. destruct (sim_cases svd uabs _ _ _ _ _ _ _ _ _ H) as [(C & _ & Ev0)|(ev1 & L & Ev)].
  { exfalso. unfold simulate in H'. cbn [negb] in H'. change (model_ok p) with true in H'. change (s_exit s0) with false in H'. cbn [negb] in H'. cbv zeta in H'.
    apply bind_Ok in H'. destruct H' as ([[st1 s2] ev1] & _ & H'). apply Ok_inj in H'. apply pair_equal_spec in H'. destruct H' as (_ & H'). rewrite Ev0 in H'. discriminate. }
  destruct (loop_inv svd uabs I0 af p sch B1 B2 _ _ _ _ _ _ B0 L) as (((_ & X) & _) & Fo).
  assert (Fin : st = Finished).
  { destruct (C28_no_frame_after_error G svd uabs fuel af p true sch s0 st s1 ev eq_refl H) as (_ & Y & _).
    destruct (loop_status G svd uabs fuel af p sch 0 _ _ _ _ L) as [->| ->]; [reflexivity|]. rewrite (proj2 Y eq_refl) in X. discriminate. }
  subst st. split; [reflexivity|].
  assert (Ck : clock_ok p) by (unfold clock_ok; cbn; lra).
  destruct (C26_frames_complete_ordered_on_time G HG svd uabs fuel af p true sch s0 s1 ev Ck eq_refl ltac:(cbn; lia) H) as (F1 & F2).
  split; [exact F1|]. intros s Hs. split; [|split].
  - destruct (F2 s Hs) as [A|(A & B)]; [left; exact A|right]. split; [exact A|]. assert (E1 : fps p = 1) by (cbn; lra). assert (E2 : min_dt p = 1/100000000000000) by (cbn; lra). rewrite E1, E2 in B. unfold Rdiv in B. rewrite Rinv_1, Rmult_1_r in B. lra.
  - apply in_files in Hs. destruct (C51_simulation_keeps_arrays G svd uabs fuel af p true sch s0 _ _ _ _ V W H) as (_ & K). apply K. now left.
  - apply in_files in Hs. rewrite Ev in Hs. rewrite Forall_forall in Fo. apply in_app_or in Hs. destruct Hs as [Hs|Hs].
    + change (save_sim p) with true in Hs. cbv iota in Hs. destruct Hs as [Hs|[Hs|[]]]; [discriminate|]. assert (s = sim_start p s0) by congruence. subst s. apply B0.
    + apply in_app_or in Hs. destruct Hs as [Hs|Hs]; [apply Fo in Hs; apply Hs|]. change (save_sim p) with true in Hs. cbv iota in Hs. destruct Hs as [Hs|[]]. discriminate.
Qed.
Print Assumptions C71_rotating_program.
