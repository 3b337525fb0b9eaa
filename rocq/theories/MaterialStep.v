(** * MaterialStep: determinants, and the constitutive update within a time step. *)
From Coq Require Import Reals ZArith Lra Lia List Bool.
From Verif Require Import Num NumR Tools Lin Types Transfer Plastic Step Spec SpecStep SpecMech SpecPlastic SpecMaterial
  LinProofs ResProofs PloopProofs StepProofs StepField PlasticProofs PlasticModels PlasticGlue.
Import ListNotations.
Local Open Scope R_scope.

(** ** Determinants *)
Ltac brute := unfold mdet, mmul, mtr, mdiag, mident, sumd, sumto; cbn [dim Geo2 Geo3 pred vget vtab mget mtab v3get]; cbn; numR; rewrite ?nofZ_R; numR.
Lemma mdet_mul : forall G, two_or_three G -> forall a b : TM, mdet (mmul a b) = mdet a * mdet b.
Proof. intros G [-> | ->]; intros; brute; ring. Qed.
Lemma mdet_tr : forall G, two_or_three G -> forall a : TM, mdet (mtr a) = mdet a.
Proof. intros G [-> | ->]; intros; brute; ring. Qed.
Lemma mdet_diag : forall G, two_or_three G -> forall v : TV, mdet (mdiag v) = fold_right Rmult 1 (map (vget v) (seq 0 dim)).
Proof. intros G [-> | ->]; intros; brute; cbn; field. Qed.
Lemma mdet_ident : forall G, two_or_three G -> mdet (mident : @TM R G) = 1.
Proof. intros G [-> | ->]; intros; brute; cbn; field. Qed.
Lemma mdet_orth : forall G, two_or_three G -> forall U : TM, orthogonal U -> mdet U * mdet U = 1.
Proof. intros G HG U (_ & H). rewrite <- (mdet_tr G HG U) at 2. rewrite <- mdet_mul, H by auto. now apply mdet_ident. Qed.
Lemma prod_exp : forall v l, fold_right Rmult 1 (map (fun k : nat => exp (v k)) l) = exp (fold_right Rplus 0 (map v l)).
Proof. intros v l. induction l as [|k l IH]; cbn; [symmetry; apply exp_0|]. now rewrite IH, exp_plus. Qed.
Lemma sumd_fold : forall G, two_or_three G -> forall f, @sumd R _ G f = fold_right Rplus 0 (map f (seq 0 (@dim R G))).
Proof. intros G [-> | ->]; intros; unfold sumd; cbn [dim Geo2 Geo3 pred sumto seq map fold_right]; numR; ring. Qed.
(** det (U diag(exp e) V^T) = det U det V exp(sum e). *)
Lemma mdet_rebuild : forall G, two_or_three G -> forall (U V : TM) (e : TV), mdet (rebuild U V e) = mdet U * mdet V * exp (vsum e).
Proof.
  intros G HG U V e. pose proof (geolaws G HG) as GL. unfold rebuild. rewrite !mdet_mul, mdet_tr, mdet_diag by auto.
  assert (E : map (vget (vmap nexp e)) (seq 0 dim) = map (fun k => exp (vget e k)) (seq 0 dim)).
  { apply map_ext_in. intros k Hk. apply in_seq in Hk. rewrite vget_map by lia. numR. reflexivity. }
  rewrite E, prod_exp, <- sumd_fold by auto. unfold vsum. change (fun k => vget e k) with (vget e). generalize (mdet U) (mdet V) (exp (sumd (vget e))). intros; numR; ring.
Qed.


(** ** Volume *)
Lemma log_exp : forall G, two_or_three G -> forall s : TV, (forall k, (k < dim)%nat -> 1/10000 <= vget s k) -> vmap nexp (log_strain s) = s.
Proof.
  intros G HG s H. pose proof (geolaws G HG) as GL. apply vext. intros k Hk. rewrite vget_map by auto. unfold log_strain. rewrite vget_tab by auto. specialize (H k Hk).
  rewrite Rmax_left by lra. numR. apply exp_ln. lra.
Qed.
Section Vol.
  Context {G : Geo R}.
  Hypothesis HG : two_or_three G.
  Variable svd : TM -> TM * TV * TM.
  Variable uabs : R -> R.
  Lemma svd_rebuild : svd_ok svd -> forall F U s V, svd F = (U, s, V) -> stretches_ok svd F -> F = rebuild U V (log_strain s).
  Proof.
    intros Sv F U s V E St. unfold rebuild. rewrite log_exp; [|auto|exact (St _ _ _ E)]. apply (sv_F _ _ _ _ (Sv _ _ _ _ E)).
  Qed.
  Theorem plast_volume : forall p dt F tau h o, svd_ok svd -> elastic p -> 0 <= visc_time p -> 0 < dt -> stretches_ok svd F ->
    plasticity svd uabs p dt F tau h = Ok o -> volume_ratio (o_F o) (o_h o) = volume_ratio F h.
  Proof.
    intros p dt F tau h o Sv El Hv Hdt St H. pose proof (geolaws G HG) as GL. apply plast_inv in H. destruct H as (U & s & V & r & Es & Hr & HF & _ & Hh & _).
    destruct (trial_pq _ _ El Sv _ _ _ _ Es) as (T & _). pose proof (return_vol uabs p dt El Hdt Hv _ _ _ T Hr) as Vo.
    pose proof (svd_rebuild Sv F U s V Es St) as FR. pose proof (Sv _ _ _ _ Es) as S0.
    assert (Tr : t_tr (trial s) = vsum (log_strain s)) by (apply trial_spec; apply (sv_s _ _ _ _ S0)).
    unfold volume_ratio. rewrite Hh, HF. unfold vol_ok in Vo. destruct (r_upd r).
    - destruct Vo as (_ & ->). reflexivity.
    - rewrite Vo. rewrite FR at 1. rewrite !mdet_rebuild by auto. rewrite Tr, exp_plus. unfold Rminus. rewrite exp_plus, exp_Ropp.
      pose proof (exp_pos (vsum (r_hencky r))). field. lra.
    - destruct Vo as (_ & ->). rewrite FR at 1. rewrite mdet_rebuild, mdet_mul, mdet_tr by auto. rewrite exp_plus, Tr. ring.
  Qed.
End Vol.

(** ** The constitutive update in a time step *)
Section Step.
  Context {G : Geo R} {GL : GeoLaws G}.
  Variable svd : TM -> TM * TV * TM.
  Variable uabs : R -> R.
  Lemma gatherM_in : forall (f : Item R -> Node R -> TM -> TM) nodes items a r, foldM (fun acc it => nd <- rd nodes (it_idx it) ;; Ok (f it nd acc)) items a = Ok (r : @TM R G) ->
    forall it, In it items -> (0 <= it_idx it < Z.of_nat (length nodes))%Z.
  Proof.
    intros f nodes items. induction items as [|i items IH]; intros a r H it Hit; [easy|]. cbn [foldM] in H. invb. destruct Hit as [-> |Hit].
    - match goal with H : rd _ _ = Ok _ |- _ => now apply rd_range in H end.
    - eapply IH; eauto.
  Qed.
  Lemma vgrad_inv : forall nodes items L, g_vgrad nodes items = Ok L ->
    forall i j, (i < dim)%nat -> (j < dim)%nat -> mget L i j = Rsum (fun it => node_v nodes it i * vget (it_g it) j) items.
  Proof.
    intros nodes items L H i j Hi Hj. assert (In' : forall it, In it items -> (0 <= it_idx it < Z.of_nat (length nodes))%Z) by (eapply gatherM_in; exact H).
    destruct (g_vgrad_val nodes items In') as (m & E & V). rewrite H in E. apply Ok_inj in E. subst m. rewrite V by auto. apply Rsum_ext.
    intros it Hit. unfold node_v. now rewrite (rd_nd_at nodes it (In' it Hit)).
  Qed.
  Lemma F_trial_eq : forall dt L F, F_trial dt L F = mmul (increment dt L) F.
  Proof.
    intros dt L F. unfold F_trial, increment. rewrite mmul_add_l, mmul_id_l. do 2 f_equal. mx. numR. ring.
  Qed.

  Definition start_hist (p : Par R) (h : Hist R) : Hist R := if use_musl p then reset_dg h else h.
  Definition Strained (p : Par R) (axes : list (Axis R)) (nodes : list (Node R)) (dt : R) (q q1 : P1 R) (cnt : nat) : Prop :=
    exists L o, velocity_gradient p axes nodes (q_x q) L /\
      plasticity svd uabs p dt (mmul (increment dt L) (q_F q)) (q_tau q) (start_hist p (q_h q)) = Ok o /\
      q_F q1 = o_F o /\ q_tau q1 = o_tau o /\ q_h q1 = o_h o /\ cnt = o_count o.
  Lemma strain_inv : forall p dt L q r, strain_particle (plast svd uabs) p dt L q = Ok r -> exists o,
    plasticity svd uabs p dt (mmul (increment dt L) (q_F q)) (q_tau q) (q_h q) = Ok o /\ q_F (fst r) = o_F o /\ q_tau (fst r) = o_tau o /\ q_h (fst r) = o_h o /\ snd (snd r) = o_count o.
  Proof. intros p dt L q r H. unfold strain_particle, plast in H. invb. rewrite F_trial_eq in *. eexists. split; [eassumption|]. cbn. auto. Qed.
  Lemma g2p_strained : forall p axes nodes dt q r, g2p_particle (plast svd uabs) p axes nodes dt q = Ok r -> use_musl p = false -> Strained p axes nodes dt q (fst r) (snd (snd r)).
  Proof.
    intros p axes nodes dt q r H Mu. unfold g2p_particle in H. cbv zeta in H. invb. rewrite Mu in H. apply strain_inv in H. destruct H as (o & Eo & A1 & A2 & A3 & A4). cbn [q_F q_tau q_h] in Eo.
    eexists _, o. split; [|unfold start_hist; rewrite Mu; repeat split; eauto]. eexists. split; [eassumption|]. now apply vgrad_inv.
  Qed.
  Lemma g2p_musl : forall p axes nodes dt q r, g2p_particle (plast svd uabs) p axes nodes dt q = Ok r -> use_musl p = true ->
    q_x (fst r) = q_x q /\ q_F (fst r) = q_F q /\ q_tau (fst r) = q_tau q /\ q_h (fst r) = q_h q.
  Proof. intros p axes nodes dt q r H Mu. unfold g2p_particle in H. cbv zeta in H. invb. rewrite Mu in H. apply Ok_inj in H. subst r. cbn. auto. Qed.
  Lemma def_strained : forall p axes nodes dt q r, def_particle (plast svd uabs) p axes nodes dt q = Ok r -> use_musl p = true -> Strained p axes nodes dt q (fst r) (snd (snd r)).
  Proof.
    intros p axes nodes dt q r H Mu. unfold def_particle in H. invb. apply strain_inv in H. destruct H as (o & Eo & A1 & A2 & A3 & A4). cbn [q_F q_tau q_h] in Eo.
    eexists _, o. split; [|unfold start_hist; rewrite Mu; repeat split; eauto]. eexists. split; [eassumption|]. now apply vgrad_inv.
  Qed.
  Lemma strained_transfer : forall p axes nodes dt q q' q1 q1' c, q_x q' = q_x q -> q_F q' = q_F q -> q_tau q' = q_tau q -> q_h q' = q_h q ->
    q_F q1' = q_F q1 -> q_tau q1' = q_tau q1 -> q_h q1' = q_h q1 -> Strained p axes nodes dt q' q1 c -> Strained p axes nodes dt q q1' c.
  Proof. intros p axes nodes dt q q' q1 q1' c A B C D E F H (L & o & X). rewrite A, B, C, D in X. exists L, o. now rewrite E, F, H. Qed.
  Lemma move_same : forall p dt q, q_F (move_of p dt q) = q_F q /\ q_tau (move_of p dt q) = q_tau q /\ q_h (move_of p dt q) = q_h q.
  Proof. intros. unfold move_of. destruct (use_musl p); repeat split. Qed.

  Theorem step_constitutive : forall af p sc s0 s1 n, valid_sched sc -> well_formed s0 n -> advanceStep svd uabs af p sc s0 = Ok s1 ->
    exists l l1, s_p s0 = pack l /\ length l = n /\ s_p s1 = pack l1 /\
      Forall2 (fun q q1 => exists c, Strained p (s_axes s1) (s_nodes s1) (s_dt s1) q q1 c) l l1.
  Proof.
    intros af p sc s0 s1 n V W H. destruct (wf_pack s0 n W) as (l & L & E & N & F).
    destruct (step_run svd uabs af p sc s0 s1 l V E N F H) as [Rn]. destruct Rn as [axes mesh g1 g2 rs _ _ _ _ Hg Hm Ha _ _ _ _]. subst axes.
    apply mapM_Ok in Hg. destruct (use_musl p) eqn:Mu.
    - destruct Hm as (g3 & rs3 & _ & Hd & Hn & Hp & _). apply mapM_Ok in Hd. rewrite Hn. exists l, (map (fun r => move_of p (s_dt s1) (fst r)) rs3). repeat split; auto.
      apply F2_map_r. apply F2_map_l in Hd. eapply F2_trans; [|exact Hg|exact Hd]. intros q r r3 _ A B.
      destruct (g2p_musl _ _ _ _ _ _ A Mu) as (A1 & A2 & A3 & A4). apply def_strained in B; auto. exists (snd (snd r3)).
      destruct (move_same p (s_dt s1) (fst r3)) as (M1 & M2 & M3).
      eapply strained_transfer; [..|exact B]; auto.
    - destruct Hm as (Hn & Hp & _). rewrite Hn. exists l, (map (fun r => move_of p (s_dt s1) (fst r)) rs). repeat split; auto.
      apply F2_map_r. eapply F2_impl; [|exact Hg]. intros q r _ A. apply g2p_strained in A; auto. exists (snd (snd r)).
      destruct (move_same p (s_dt s1) (fst r)) as (M1 & M2 & M3). eapply strained_transfer; [..|exact A]; auto.
  Qed.
End Step.
