(** * PropDefined: C46 (no undefined values in the plastic update) and C47 (reported plastic
    activity). *)
From Coq Require Import Reals ZArith Lra Lia List Bool Permutation.
From Verif Require Import Num NumR Tools Lin Types Transfer Rma Plastic Step Counter Spec SpecStep SpecMech SpecPlastic SpecMaterial
  LinProofs ResProofs PloopProofs StepProofs StepField PlasticProofs RmaProofs PlasticModels PlasticGlue MaterialStep PropTime PropStep PropPlastic PropRma PropMaterial PropStress.
Import ListNotations.

(** ** C46, for every type of numbers, every SVD and every argument *)
(** The settings for which the plastic update may read a variable that was never assigned. *)
Definition reads_garbage {A} {G : Geo A} (p : Par A) : Prop :=
  hardening_law p = NoHard /\ (plastic_model p = MCCMui \/ ((plastic_model p = MCC \/ plastic_model p = MCCVisc) /\ use_mibf p = true)).
Theorem C46_defined_partial : forall A (NA : Num A) (G : Geo A) svd uabs (p : Par A) dt F tau h, ~ reads_garbage p ->
  exists o, plasticity svd uabs p dt F tau h = Ok o.
Proof.
  intros A NA G svd uabs p dt F tau h Ng.
  assert (Mcc : (plastic_model p = MCC \/ plastic_model p = MCCVisc) -> forall t, exists r, pl_MCC uabs p dt t h = Ok r).
  { intros Pm t. unfold pl_MCC. cbv zeta. destruct (mcc_rma uabs p false _ _ _) as [[r0 pc]|] eqn:E.
    - destruct (rm_plastic r0); [|eexists; reflexivity]. match goal with |- context [match ?X with (_, _) => _ end] => destruct X as [[b q] ex] end.
      destruct (use_mibf p) eqn:Mi; [|eexists; reflexivity]. unfold mcc_rma in E. destruct (hardening_law p) eqn:Hl; try (exfalso; apply Ng; split; now auto);
        apply some_pair in E; destruct E as (_ & <-); cbn [bind];
        match goal with |- context [if ?c then Ok _ else _] => destruct c end; try (eexists; reflexivity); destruct (use_dl p); eexists; reflexivity.
    - exfalso. unfold mcc_rma in E. destruct (hardening_law p); discriminate. }
  unfold plasticity. destruct (svd F) as [[U s] V]. cbv zeta.
  assert (R : exists r, return_map uabs p dt (trial s) h = Ok r).
  { unfold return_map. destruct (plastic_model p) eqn:Pm; try (eexists; reflexivity); try (apply Mcc; auto).
    unfold pl_MCCMui. cbv zeta. destruct (mcc_rma uabs p true _ _ _) as [[r0 pc]|] eqn:E.
    - destruct (rm_plastic r0); [|eexists; reflexivity]. match goal with |- context [match ?X with (_, _) => _ end] => destruct X as [qf h2] end. eexists; reflexivity.
    - exfalso. unfold mcc_rma in E. destruct (hardening_law p) eqn:Hl; try discriminate. apply Ng. split; auto. }
  destruct R as (r & ->). cbn [bind]. eexists; reflexivity.
Qed.
Print Assumptions C46_defined_partial.
(** MCCMui with NoHard always reads perform_rma uninitialised; it is accepted by simulate(). *)
Theorem C46_mccmui_nohard_refuted : forall A (NA : Num A) (G : Geo A) svd uabs (p : Par A) dt F tau h,
  plastic_model p = MCCMui -> hardening_law p = NoHard -> elastic_model p = Hencky -> model_ok p = true /\ plasticity svd uabs p dt F tau h = UB.
Proof.
  intros A NA G svd uabs p dt F tau h Pm Hl Em. split; [unfold model_ok; now rewrite Em|].
  unfold plasticity. destruct (svd F) as [[U s] V]. unfold return_map. rewrite Pm. unfold pl_MCCMui, mcc_rma. rewrite Hl. reflexivity.
Qed.
Print Assumptions C46_mccmui_nohard_refuted.
Local Open Scope R_scope.
(** MCC and MCCVisc with NoHard and use_mibf read p_c uninitialised for every particle outside the
    ellipse. *)
Theorem C46_mcc_nohard_mibf_refuted : forall G, two_or_three G -> forall svd uabs p dt F tau h, svd_ok svd -> elastic p -> sane p ->
  plastic_model p = MCC \/ plastic_model p = MCCVisc -> hardening_law p = NoHard -> use_mibf p = true -> elastic_model p = Hencky ->
  let S := trial_stress svd p F in
  0 < cam_clay (Mfric p) (beta p) (p0 p) (pressure S) (shear (q_prefac p) S) -> model_ok p = true /\ plasticity svd uabs p dt F tau h = UB.
Proof.
  intros G HG svd uabs p dt F tau h Sv El Sa Pm Hl Mi Em S Hy. pose proof (geolaws G HG) as GL. split; [unfold model_ok; now rewrite Em|]. subst S.
  unfold plasticity. destruct (svd F) as [[U s] V] eqn:Es. cbv zeta. destruct (trial_pq svd p El Sv _ _ _ _ Es) as (T & EP & EQ & _). rewrite EP, EQ in Hy.
  assert (R : return_map uabs p dt (trial s) h = UB); [|rewrite R; reflexivity].
  assert (R : pl_MCC uabs p dt (trial s) h = UB); [|unfold return_map; destruct Pm as [-> | ->]; exact R].
  unfold pl_MCC. cbv zeta. change (- bulkK p * t_tr (trial s))%num with (P p (trial s)). change (e_mu_prefac p * t_n (trial s))%num with (Q p (trial s)).
  destruct (mcc_rma uabs p false (P p (trial s)) (Q p (trial s)) (h_vol h)) as [[r0 pc]|] eqn:E; [|reflexivity].
  destruct (mcc_rma_spec uabs p dt El Sa _ _ _ _ _ _ E) as (_ & B). cbv zeta in B. unfold preconsolidation in B. rewrite Hl in B. destruct (B Hy) as (Pl & _). rewrite Pl.
  match goal with |- context [match ?X with (_, _) => _ end] => destruct X as [[b q] ex] end. rewrite Mi. unfold mcc_rma in E. rewrite Hl in E. apply some_pair in E. destruct E as (_ & <-). rewrite Hl. reflexivity.
Qed.
Print Assumptions C46_mcc_nohard_mibf_refuted.
(** With any other setting, steps never stop for undefined values in the plastic update. *)
Theorem C46_material_defined : forall (G : Geo R) svd uabs (p : Par R), ~ reads_garbage p -> material_defined svd uabs p.
Proof. intros G svd uabs p Ng dt F tau h. now apply C46_defined_partial. Qed.
Print Assumptions C46_material_defined.

(** ** C47 *)
Lemma upd_count : forall (G : Geo R) uabs p dt t h r, return_map uabs p dt t h = Ok r ->
  (r_cnt r = 1%nat /\ r_upd r = Rebuild) \/ (r_cnt r = 0%nat /\ (r_upd r = Rotation \/ (r_upd r = Keep /\
     (h_dg (r_h r) = 0 \/ (h_dg (r_h r) = h_dg h /\ plastic_model p <> DPSoft /\ plastic_model p <> DPVisc))))).
Proof.
  assert (Z : nofZ 0 = 0) by apply nofZ_R.
  assert (Mcc : forall (G : Geo R) uabs p dt t h r, pl_MCC uabs p dt t h = Ok r -> (r_cnt r = 1%nat /\ r_upd r = Rebuild) \/ (r_cnt r = 0%nat /\ r_upd r = Keep /\ h_dg (r_h r) = h_dg h)).
  { intros G uabs p dt t h r Hr. unfold pl_MCC in Hr. cbv zeta in Hr. destruct (mcc_rma _ _ _ _ _ _) as [[r0 pc]|]; [|discriminate].
    destruct (rm_plastic r0); [|apply Ok_inj in Hr; subst r; right; destruct (use_mibf p); auto]. left.
    match type of Hr with context [match ?X with (_, _) => _ end] => destruct X as [[b q] ex] end. apply bind_Ok in Hr. destruct Hr as (h2 & _ & Hr). apply Ok_inj in Hr. subst r. auto. }
  intros G uabs p dt t h r Hr. unfold return_map in Hr. destruct (plastic_model p) eqn:Pm; try (apply Mcc in Hr; destruct Hr as [?|(? & ? & ?)]; [now left|right; split; auto; right; split; auto; right; repeat split; auto; congruence]);
    try (apply Ok_inj in Hr; subst r).
  - right. split; auto. right. split; auto. right. repeat split; auto; congruence.
  - unfold pl_VM. cbv zeta. destruct (nltb _ _); [now left|]. right. split; auto. right. split; auto. right. repeat split; auto; congruence.
  - unfold pl_DP. cbv zeta. destruct (nltb _ _); [now left|]. destruct (nltb _ _); [now left|]. right. split; auto. right. split; auto. right. repeat split; auto; congruence.
  - remember (pl_DPSoft p dt t h) as r eqn:Er. unfold pl_DPSoft in Er. cbv zeta in Er. numR.
    match type of Er with _ = (if Rleb ?x ?y then _ else _) => set (a := x) in *; set (b := y) in * end.
    destruct (Rleb_spec a b) as [L|L]; [left; subst r; auto|]. assert (E : Rltb b a = true) by (destruct (Rltb_spec b a); auto; lra). rewrite E in Er. cbn [andb] in Er.
    match type of Er with _ = (if Rleb ?x ?y then _ else _) => set (c := x) in *; set (d := y) in * end.
    destruct (Rleb_spec c d) as [L1|L1]; [right; subst r; split; auto; right; split; auto; left; exact Z|].
    assert (E1 : Rltb d c = true) by (destruct (Rltb_spec d c); auto; lra). rewrite E1 in Er. left.
    match type of Er with _ = (if ?x then _ else _) => destruct x end; subst r; auto.
  - unfold pl_VMVisc. cbv zeta. destruct (nltb _ _); [right; auto|]. destruct (nltb _ _); [|right; split; auto; right; split; auto; right; repeat split; auto; congruence].
    match goal with |- context [match ?X with (_, _) => _ end] => destruct X as [dg ex] end. now left.
  - unfold pl_DPVisc. cbv zeta. destruct (nltb _ _); [now left|]. destruct (_ && _)%bool; [|right; split; auto; right; split; auto; left; exact Z].
    match goal with |- context [match ?X with (_, _) => _ end] => destruct X as [dg ex] end. now left.
  - unfold pl_DPMui. cbv zeta. destruct (nltb _ _); [now left|]. destruct (_ && _)%bool; [now left|]. right. split; auto. right. split; auto. right. repeat split; auto; congruence.
  - unfold pl_MCCMui in Hr. cbv zeta in Hr. destruct (mcc_rma _ _ _ _ _ _) as [[r0 pc]|]; [|discriminate].
    destruct (rm_plastic r0); [|apply Ok_inj in Hr; subst r; right; split; auto; right; split; auto; right; repeat split; auto; congruence].
    match type of Hr with context [match ?X with (_, _) => _ end] => destruct X as [qf h2] end. apply Ok_inj in Hr. subst r. now left.
Qed.
(** A particle whose trial state is elastic has delta_gamma = 0 after the step: with MUSL for every
    model; with USL only for DPSoft and DPVisc. *)
Theorem C47_rate_current_partial : forall G, two_or_three G -> forall svd uabs af p sc s0 s1 n i x F t h, admissible_material svd p -> elastic_model p = Hencky ->
  valid_sched sc -> well_formed s0 n -> advanceStep svd uabs af p sc s0 = Ok s1 -> nth_error (p_x (s_p s0)) i = Some x -> particle_at (s_p s0) i F t h ->
  exists L F1 t1 h1, velocity_gradient p (s_axes s1) (s_nodes s1) x L /\ particle_at (s_p s1) i F1 t1 h1 /\
    let S := trial_stress svd p (mmul (increment (s_dt s1) L) F) in
    (elastic_domain p h (pressure S) (shear (q_prefac p) S) ->
     use_musl p = true \/ plastic_model p = DPSoft \/ plastic_model p = DPVisc -> h_dg h1 = 0).
Proof.
  intros G HG svd uabs af p sc s0 s1 n i x F t h (Sv & El & Sa & Hm) Em V W H Hx HP. pose proof (step_dt_pos G HG svd uabs af p sc s0 s1 Hm H) as Hdt.
  destruct (step_particle G HG svd uabs af p sc s0 s1 n i x F t h V W H Hx HP) as (L & o & HL & Ho & HP1).
  exists L, (o_F o), (o_tau o), (o_h o). split; [exact HL|]. split; [exact HP1|]. intros S D Hc. set (h' := if use_musl p then reset_dg h else h) in *.
  assert (D' : elastic_domain p h' (pressure S) (shear (q_prefac p) S)) by (unfold h'; destruct (use_musl p); exact D). subst S.
  assert (Up : updated svd uabs p (s_dt s1) (mmul (increment (s_dt s1) L) F) t h' o) by (unfold updated; auto 10).
  destruct (C34_elastic_states G HG svd uabs p _ _ _ h' o Up D') as (_ & _ & _ & _ & Cn & _). pose proof (geolaws G HG) as GL.
  apply plast_inv in Ho. destruct Ho as (U & s & Vm & r & Es & Hr & _ & _ & Eh & Ec & _). rewrite Eh. rewrite Ec in Cn.
  destruct (upd_count G uabs p _ _ _ r Hr) as [(A & _)|(_ & [A|(_ & [A|(A & B & C)])])]; [congruence| |exact A|].
  - exfalso. destruct (upd_rotation G uabs p _ _ _ r Hr A) as (Pm & Lc). unfold elastic_domain in D'. rewrite Pm in D'.
    destruct (trial_pq svd p El Sv _ _ _ _ Es) as (_ & EP & _). rewrite EP in D'. unfold cap in Lc. numR. lra.
  - rewrite A. destruct Hc as [Hc|[Hc|Hc]]; try congruence. unfold h'. rewrite Hc. unfold reset_dg. cbn [h_dg]. apply nofZ_R.
Qed.
Print Assumptions C47_rate_current_partial.
(** The update counts a particle iff it replaces the deformation, except in the torn state; it
    counts no elastic particle. *)
Theorem C47_what_is_counted : forall G, two_or_three G -> forall svd uabs p dt F tau h o, updated svd uabs p dt F tau h o ->
  let S := trial_stress svd p F in
  (o_count o = 1%nat /\ ~ elastic_domain p h (pressure S) (shear (q_prefac p) S)) \/ (o_count o = 0%nat /\ (o_F o = F \/ torn svd p F h)).
Proof.
  intros G HG svd uabs p dt F tau h o Up S. pose proof Up as (Sv & El & Sa & Em & Hdt & Ho). pose proof (geolaws G HG) as GL.
  apply plast_inv in Ho. destruct Ho as (U & s & Vm & r & Es & Hr & EF & _ & Eh & Ec & _).
  destruct (upd_count G uabs p _ _ _ r Hr) as [(A & _)|(A & B)].
  - left. split; [congruence|]. intros D. destruct (C34_elastic_states G HG svd uabs p _ _ _ h o Up D) as (_ & _ & _ & _ & Cn & _). congruence.
  - right. split; [congruence|]. destruct B as [B|(B & _)]; [right|left; rewrite EF, B; reflexivity].
    destruct (upd_rotation G uabs p _ _ _ r Hr B) as (Pm & Lc). split; [exact Pm|]. destruct (trial_pq svd p El Sv _ _ _ _ Es) as (_ & EP & _). rewrite EP. exact Lc.
Qed.
Print Assumptions C47_what_is_counted.

(** MUSL: whatever thread handles a particle and in whatever order the threads finish, the count is
    the sum over the particles. *)
Theorem C47_musl_count_exact : forall threads counts, Permutation (concat threads) counts -> reduction_count threads = list_sum counts.
Proof.
  intros threads counts Pm.
  assert (S1 : forall l a, fold_left Nat.add l a = (a + list_sum l)%nat) by (induction l as [|b l IH]; intros a0; [cbn; lia|cbn [fold_left]; rewrite IH; change (list_sum (b :: l)) with (b + list_sum l)%nat; lia]).
  assert (S2 : forall l a, fold_left (fun total mine => (total + fold_left Nat.add mine 0)%nat) l a = (a + list_sum (concat l))%nat).
  { induction l as [|m l IH]; intros a0; cbn [fold_left concat]; [cbn; lia|]. rewrite IH, S1, list_sum_app. lia. }
  unfold reduction_count. rewrite S2. cbn [Nat.add]. clear - Pm. induction Pm; unfold list_sum in *; cbn [fold_right]; lia.
Qed.
Print Assumptions C47_musl_count_exact.

(** USL: the shared counter.  What it may print. *)
Definition pending (w : Worker) : nat := match w with Resting n => n | Holding _ n => S n end.
Definition held_le (b : nat) (w : Worker) : Prop := match w with Resting _ => True | Holding v _ => (v <= b)%nat end.
Definition left_to_do (ws : list Worker) : nat := list_sum (map pending ws).
Lemma left_mid : forall pre w post, left_to_do (pre ++ w :: post) = (left_to_do pre + pending w + left_to_do post)%nat.
Proof. intros. unfold left_to_do. rewrite map_app, list_sum_app. cbn [map]. change (list_sum (pending w :: map pending post)) with (pending w + list_sum (map pending post))%nat. lia. Qed.
Lemma race_inv : forall T s1 s2, race_run s1 s2 ->
  (left_to_do (snd s1) <= T)%nat -> (fst s1 + left_to_do (snd s1) <= T)%nat -> Forall (held_le (T - left_to_do (snd s1))) (snd s1) -> ((left_to_do (snd s1) < T)%nat -> (1 <= fst s1)%nat) ->
  (fst s2 + left_to_do (snd s2) <= T)%nat /\ ((left_to_do (snd s2) < T)%nat -> (1 <= fst s2)%nat).
Proof.
  intros T s1 s2 Rn. induction Rn as [s|s1 s2 s3 St Rn IH]; intros A B C D; [auto|]. apply IH; clear IH Rn; destruct St as [pre w post sh sh' w' Sw]; cbn [fst snd] in *; rewrite left_mid in *; unfold worker_step in Sw; destruct w as [[|n]|v n]; inversion Sw; subst; cbn [pending] in *.
  - lia.
  - lia.
  - lia.
  - apply Forall_app in C. destruct C as (C1 & C2). inversion C2 as [|? ? C3 C4]. subst. cbn in C3. lia.
  - apply Forall_app in C. destruct C as (C1 & C2). inversion C2 as [|? ? C3 C4]. subst. apply Forall_app. split; [exact C1|]. constructor; [cbn; lia|exact C4].
  - apply Forall_app in C. destruct C as (C1 & C2). inversion C2 as [|? ? C3 C4]. subst.
    assert (Up : forall b b' l, (b <= b')%nat -> Forall (held_le b) l -> Forall (held_le b') l) by (intros b b' l Hb; apply Forall_impl; intros [|]; cbn; lia).
    apply Forall_app. split; [eapply Up; [|exact C1]; lia|]. constructor; [cbn; auto|eapply Up; [|exact C4]; lia].
  - intros Hl. apply D. lia.
  - intros _. lia.
Qed.
(** The printed number never exceeds the number of projected particles, and is zero only if there
    are none. *)
Theorem C47_usl_count_bounds : forall todo c, shared_count todo c -> (c <= list_sum todo)%nat /\ ((0 < list_sum todo)%nat -> (1 <= c)%nat).
Proof.
  intros todo c H. unfold shared_count in H.
  assert (L0 : left_to_do (map Resting todo) = list_sum todo) by (unfold left_to_do; rewrite map_map; cbn [pending]; now rewrite map_id).
  assert (L1 : left_to_do (map (fun _ : nat => Resting 0) todo) = 0%nat) by (unfold left_to_do; rewrite map_map; cbn [pending]; clear; induction todo as [|a todo IH]; [reflexivity|exact IH]).
  destruct (race_inv (list_sum todo) _ _ H) as (A & B); cbn [fst snd] in *; rewrite ?L0, ?L1 in *; try lia.
  - apply Forall_forall. intros w Hw. apply in_map_iff in Hw. destruct Hw as (k & <- & _). exact I.
Qed.
Print Assumptions C47_usl_count_bounds.
(** With one thread it is exact. *)
Theorem C47_usl_one_thread_exact : forall n c, shared_count [n] c -> c = n.
Proof.
  intros n c H. unfold shared_count in H. cbn [map] in H.
  assert (Inv : forall s1 s2, race_run s1 s2 -> forall w, snd s1 = [w] -> (match w with Resting k => fst s1 + k = n | Holding v k => v + S k = n end)%nat ->
    exists w2, snd s2 = [w2] /\ (match w2 with Resting k => fst s2 + k = n | Holding v k => v + S k = n end)%nat).
  { intros s1 s2 Rn. induction Rn as [s|s1 s2 s3 St Rn IH]; intros w E Hw; [eauto|]. destruct St as [pre w0 post sh sh' w' Sw]. cbn [fst snd] in *.
    destruct pre as [|z pre]; [|destruct pre; discriminate]. cbn in E. injection E as E1 E2. subst. apply (IH w' eq_refl). unfold worker_step in Sw. destruct w as [[|k]|v k]; inversion Sw; subst; lia. }
  destruct (Inv _ _ H _ eq_refl) as (w2 & E & Hw); [cbn; lia|]. cbn in E. injection E as <-. cbn in Hw. lia.
Qed.
Print Assumptions C47_usl_one_thread_exact.
(** Two threads with one projected particle each may print 1 instead of 2. *)
Theorem C47_usl_count_refuted : exists todo c, shared_count todo c /\ c <> list_sum todo.
Proof.
  exists [1%nat; 1%nat], 1%nat. split; [|cbn; lia]. unfold shared_count. cbn [map].
  eapply race_cons; [apply (race [] (Resting 1) [Resting 1]); reflexivity|]. cbn [app].
  eapply race_cons; [apply (race [Holding 0 0] (Resting 1) []); reflexivity|]. cbn [app].
  eapply race_cons; [apply (race [] (Holding 0 0) [Holding 0 0]); reflexivity|]. cbn [app].
  eapply race_cons; [apply (race [Resting 0] (Holding 0 0) []); reflexivity|]. cbn [app]. apply race_nil.
Qed.
Print Assumptions C47_usl_count_refuted.
Local Close Scope R_scope.
(** Non-vacuity: five particles on three threads, three of them projected. *)
Example C47_count_ex : reduction_count [[1; 0]; []; [0; 1; 1]] = 3 /\ Permutation (concat [[1; 0]; []; [0; 1; 1]]) [1; 0; 0; 1; 1].
Proof. split; [reflexivity|]. cbn. apply Permutation_refl. Qed.
