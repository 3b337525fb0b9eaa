(** * PropError: C28, errors of the stress update reach the end of the step. *)
From Coq Require Import Reals ZArith Lra Lia List Bool.
From Verif Require Import Num NumR Tools Lin Types Transfer Rma Plastic Step Spec SpecStep SpecMech SpecPlastic SpecMaterial
  LinProofs ResProofs PloopProofs StepProofs StepField PlasticProofs RmaProofs PlasticModels PlasticGlue MaterialStep PropTime PropStep PropPlastic PropRma PropMaterial ExStep ExMech.
Import ListNotations.
Local Open Scope R_scope.

(** The stress update of one particle and what the loop recorded for it. *)
Definition reported {G : Geo R} svd uabs p axes nodes dt (q : P1 R) (r : P1 R * Flags) (o : PlOut R) : Prop :=
  exists L, velocity_gradient p axes nodes (q_x q) L /\
    plasticity svd uabs p dt (mmul (increment dt L) (q_F q)) (q_tau q) (start_hist p (q_h q)) = Ok o /\
    q_F (fst r) = o_F o /\ q_tau (fst r) = o_tau o /\ q_h (fst r) = o_h o /\ fst (snd r) = o_exit o.
Lemma strain_exit : forall (G : Geo R) svd uabs, GeoLaws G -> forall p dt L q r, strain_particle (plast svd uabs) p dt L q = Ok r -> exists o,
  plasticity svd uabs p dt (mmul (increment dt L) (q_F q)) (q_tau q) (q_h q) = Ok o /\ q_F (fst r) = o_F o /\ q_tau (fst r) = o_tau o /\ q_h (fst r) = o_h o /\ fst (snd r) = o_exit o.
Proof. intros G svd uabs GL p dt L q r H. unfold strain_particle, plast in H. invb. rewrite F_trial_eq in *. eexists. split; [eassumption|]. cbn. auto. Qed.
Lemma g2p_reported : forall (G : Geo R) svd uabs, GeoLaws G -> forall p axes nodes dt q r, g2p_particle (plast svd uabs) p axes nodes dt q = Ok r -> use_musl p = false -> exists o, reported svd uabs p axes nodes dt q r o.
Proof.
  intros G svd uabs GL p axes nodes dt q r H Mu. unfold g2p_particle in H. cbv zeta in H. invb. rewrite Mu in H. apply strain_exit in H; auto. destruct H as (o & Eo & A1 & A2 & A3 & A4). cbn [q_F q_tau q_h] in Eo.
  exists o. eexists. split; [|unfold start_hist; rewrite Mu; repeat split; eauto]. eexists. split; [eassumption|]. now apply vgrad_inv.
Qed.
Lemma def_reported : forall (G : Geo R) svd uabs, GeoLaws G -> forall p axes nodes dt q r, def_particle (plast svd uabs) p axes nodes dt q = Ok r -> use_musl p = true -> exists o, reported svd uabs p axes nodes dt q r o.
Proof.
  intros G svd uabs GL p axes nodes dt q r H Mu. unfold def_particle in H. invb. apply strain_exit in H; auto. destruct H as (o & Eo & A1 & A2 & A3 & A4). cbn [q_F q_tau q_h] in Eo.
  exists o. eexists. split; [|unfold start_hist; rewrite Mu; repeat split; eauto]. eexists. split; [eassumption|]. now apply vgrad_inv.
Qed.
Lemma collect : forall X Y Z (Q : X -> Y -> Z -> Prop) l rs, Forall2 (fun x y => exists z, Q x y z) l rs -> exists zs, Forall2 (fun xy z => Q (fst xy) (snd xy) z) (combine l rs) zs.
Proof. intros X Y Z Q l rs F. induction F as [|x y l rs (z & H) F (zs & IH)]; [exists []; constructor|]. exists (z :: zs). now constructor. Qed.
Lemma F2_len : forall X Y (Q : X -> Y -> Prop) l l', Forall2 Q l l' -> length l = length l'.
Proof. intros X Y Q l l' F. induction F; cbn; auto. Qed.
Lemma nth_combine : forall X Y (l : list X) (l' : list Y) i x y, nth_error l i = Some x -> nth_error l' i = Some y -> nth_error (combine l l') i = Some (x, y).
Proof. intros X Y. induction l as [|a l IH]; intros [|b l'] [|i] x y Hx Hy; cbn in *; try discriminate; [congruence|auto]. Qed.
Lemma F2_nth_r : forall X Y (Q : X -> Y -> Prop) l l' i y, Forall2 Q l l' -> nth_error l' i = Some y -> exists x, nth_error l i = Some x /\ Q x y.
Proof. intros X Y Q l l' i y F. revert i. induction F; intros [|i] Hi; cbn in *; try discriminate; [injection Hi as <-; eauto|eauto]. Qed.

(** ** C28 *)
(** A step makes one stress update per particle, and its error flag is set exactly if one of them
    reported an error, or if it was set before. *)
Theorem C28_error_is_detected : forall G, two_or_three G -> forall svd uabs af p sc s0 s1 n, valid_sched sc -> well_formed s0 n -> advanceStep svd uabs af p sc s0 = Ok s1 ->
  exists outs, length outs = n /\
    (forall i x F t h, nth_error (p_x (s_p s0)) i = Some x -> particle_at (s_p s0) i F t h ->
       exists L o, nth_error outs i = Some o /\ velocity_gradient p (s_axes s1) (s_nodes s1) x L /\
         plasticity svd uabs p (s_dt s1) (mmul (increment (s_dt s1) L) F) t (if use_musl p then reset_dg h else h) = Ok o /\
         particle_at (s_p s1) i (o_F o) (o_tau o) (o_h o)) /\
    (s_exit s1 = true <-> s_exit s0 = true \/ exists i o, nth_error outs i = Some o /\ o_exit o = true).
Proof.
  intros G HG svd uabs af p sc s0 s1 n V W H. pose proof (geolaws G HG) as GL. destruct (wf_pack s0 n W) as (l & L & E & N & F).
  destruct (step_run svd uabs af p sc s0 s1 l V E N F H) as [Rn]. destruct Rn as [axes mesh g1 g2 rs _ _ _ _ Hg Hm Ha _ _ _ _]. subst axes. apply mapM_Ok in Hg.
  assert (K : exists rr, length rr = n /\ Forall2 (fun q r => exists o, reported svd uabs p (s_axes s1) (s_nodes s1) (s_dt s1) q r o) l rr /\
    s_p s1 = pack (map (fun r => move_of p (s_dt s1) (fst r)) rr) /\ s_exit s1 = (s_exit s0 || existsb (fun r => fst (snd r)) rr)%bool).
  { destruct (use_musl p) eqn:Mu.
    - destruct Hm as (g3 & rs3 & _ & Hd & Hn & Hp & Hx). apply mapM_Ok in Hd. exists rs3. apply F2_map_l in Hd. rewrite Hn.
      assert (Ff : Forall2 (fun q r => exists o, reported svd uabs p (s_axes s1) g3 (s_dt s1) q r o) l rs3).
      { eapply F2_trans; [|exact Hg|exact Hd]. intros q r r3 _ A B. destruct (g2p_musl _ _ _ _ _ _ _ _ A Mu) as (A1 & A2 & A3 & A4).
        destruct (def_reported G svd uabs GL _ _ _ _ _ _ B Mu) as (o & M & X). exists o, M. unfold blend_of, set_v in X. cbn [q_x q_F q_tau q_h] in X. rewrite A1, A2, A3, A4 in X. exact X. }
      split; [rewrite <- (F2_len _ _ _ _ _ Ff); exact L|]. split; [exact Ff|]. split; [exact Hp|]. rewrite Hx.
      assert (Z : existsb (fun r : P1 R * Flags => fst (snd r)) rs = false).
      { destruct (existsb _ rs) eqn:Ex; auto. apply existsb_exists in Ex. destruct Ex as (r & Hr & Hr'). apply In_nth_error in Hr. destruct Hr as (i & Hi).
        destruct (F2_nth_r _ _ _ _ _ _ _ Hg Hi) as (q & _ & A). unfold g2p_particle in A. cbv zeta in A. invb. rewrite Mu in A. apply Ok_inj in A. subst r. discriminate Hr'. }
      match goal with |- context [existsb ?f rs] => replace (existsb f rs) with false by (symmetry; exact Z) end. rewrite orb_false_r. reflexivity.
    - destruct Hm as (Hn & Hp & Hx). exists rs. rewrite Hn. assert (Ff : Forall2 (fun q r => exists o, reported svd uabs p (s_axes s1) g2 (s_dt s1) q r o) l rs).
      { eapply F2_impl; [|exact Hg]. intros q r _ A. now apply g2p_reported. }
      split; [rewrite <- (F2_len _ _ _ _ _ Ff); exact L|]. split; [exact Ff|]. split; [exact Hp|exact Hx]. }
  destruct K as (rr & Lr & Ff & Hp & Hx). pose proof (collect _ _ _ _ _ _ Ff) as (outs & Fo).
  assert (Lo : length outs = n) by (rewrite <- (F2_len _ _ _ _ _ Fo), combine_length; lia).
  exists outs. split; [exact Lo|]. split.
  - intros i x F0 t h Hi HP. rewrite E in Hi, HP. destruct (nth_pack G l i x F0 t h Hi HP) as (q & Hq & <- & <- & <- & <-).
    destruct (F2_nth _ _ _ _ _ _ _ Ff Hq) as (r & Hr & _). destruct (F2_nth _ _ _ _ _ _ _ Fo (nth_combine _ _ _ _ _ _ _ Hq Hr)) as (o & Ho & M & X1 & X2 & X3 & X4 & X5 & _). cbn [fst snd] in *.
    exists M, o. split; [exact Ho|]. split; [exact X1|]. split; [exact X2|]. rewrite Hp. unfold particle_at, pack. cbn [p_F p_tau p_hist]. rewrite !nth_error_map, Hr. cbn.
    destruct (move_same p (s_dt s1) (fst r)) as (M1 & M2 & M3). rewrite M1, M2, M3, X3, X4, X5. auto.
  - rewrite Hx, orb_true_iff, existsb_exists. split; (intros [A|A]; [left; exact A|right]).
    + destruct A as (r & Hr & He). apply In_nth_error in Hr. destruct Hr as (i & Hi). destruct (F2_nth_r _ _ _ _ _ _ _ Ff Hi) as (q & Hq & _).
      destruct (F2_nth _ _ _ _ _ _ _ Fo (nth_combine _ _ _ _ _ _ _ Hq Hi)) as (o & Ho & M & _ & _ & _ & _ & _ & X). cbn [fst snd] in X. exists i, o. split; [exact Ho|]. rewrite <- X. exact He.
    + destruct A as (i & o & Ho & He). destruct (F2_nth_r _ _ _ _ _ _ _ Fo Ho) as ((q & r) & Hc & M & _ & _ & _ & _ & _ & X). cbn [fst snd] in X. exists r. split; [|rewrite <- He; exact X].
      apply nth_error_In in Hc. eapply in_combine_r; eauto.
Qed.
Print Assumptions C28_error_is_detected.
(** The step of ExMech meets the hypotheses. *)
Example C28_detected_ex : forall svd uabs sc, valid_sched sc -> exists af s1, let p := ex_p 0 true 1000 vzero false in let s0 := ex_state p at_rest in
  well_formed s0 2 /\ advanceStep svd uabs af p sc s0 = Ok s1.
Proof. intros svd uabs sc V. destruct (ex_mech svd uabs sc 0 true vzero vzero vzero mzero mzero mzero mzero V) as (af & s1 & E & _). exists af, s1. split; [apply ex_wf|exact E]. Qed.
