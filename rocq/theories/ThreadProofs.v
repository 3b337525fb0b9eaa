(** * ThreadProofs: threads with disjoint footprints, and threads with a critical section. *)
From Coq Require Import ZArith Lia List Bool Permutation FunctionalExtensionality.
From Verif Require Import Num Lin Types Transfer ResProofs Threads SpecThreads.
Import ListNotations.

Section ThreadProofs.
  Context {A : Type} {G : Geo A}.
  Notation Prog := (Prog A).
  Notation Mem := (Mem A).

  (** Run of one thread alone, up to the program [E], reading in [R] and writing in [W]. *)
  Inductive alone (R W : Loc -> Prop) (E : Prog) : Prog -> Mem -> nat -> Mem -> Prop :=
  | al_end : forall m, alone R W E E m 0 m
  | al_load : forall l k v m n m', R l -> m l = Some v -> alone R W E (k v) m n m' -> alone R W E (Load l k) m (S n) m'
  | al_store : forall l v k m n m', W l -> m l <> None -> alone R W E k (mset m l v) n m' -> alone R W E (Store l v k) m (S n) m'.

  Lemma mset_same : forall (m : Mem) l v, mset m l v l = Some v.
  Proof. intros. unfold mset. destruct (Loc_eq_dec l l); congruence. Qed.
  Lemma mset_other : forall (m : Mem) l v l', l <> l' -> mset m l v l' = m l'.
  Proof. intros. unfold mset. destruct (Loc_eq_dec l l'); congruence. Qed.

  Lemma alone_off : forall R W E p m n m', alone R W E p m n m' -> forall l, ~ W l -> m' l = m l.
  Proof.
    intros R W E p m n m' H. induction H; intros x Hx; auto. rewrite IHalone by auto. apply mset_other. congruence.
  Qed.
  Lemma alone_frame : forall R W E p m n m', alone R W E p m n m' -> forall m1, (forall l, R l \/ W l -> m1 l = m l) ->
    exists m1', alone R W E p m1 n m1' /\ (forall l, R l \/ W l -> m1' l = m' l).
  Proof.
    intros R W E p m n m' H. induction H; intros m1 K.
    - exists m1. split; [constructor|auto].
    - destruct (IHalone m1 K) as (m1' & Ha & K1). exists m1'. split; auto. econstructor; eauto. rewrite K by auto. auto.
    - destruct (IHalone (mset m1 l v)) as (m1' & H1' & K1).
      { intros x Hx. unfold mset. destruct (Loc_eq_dec l x); auto. }
      exists m1'. split; auto. econstructor; eauto. rewrite K by auto. auto.
  Qed.

  (** ** Lists *)
  Lemma set_nth_length : forall X (l : list X) t x, length (set_nth t x l) = length l.
  Proof. induction l; intros [|t] x; cbn; auto. Qed.
  Lemma set_nth_nth : forall X (l : list X) t x u, t < length l -> nth_error (set_nth t x l) u = if Nat.eqb t u then Some x else nth_error l u.
  Proof. induction l; intros [|t] x [|u] H; cbn in *; try lia; auto. apply IHl. lia. Qed.
  Lemma set_nth_sum : forall l t n n', nth_error l t = Some n -> n' < n -> list_sum (set_nth t n' l) < list_sum l.
  Proof.
    unfold list_sum. induction l; intros [|t] n n' H K; cbn in *; try discriminate; [injection H as ->; lia|]. specialize (IHl _ _ _ H K). lia.
  Qed.
  Lemma nth_lt : forall X (l : list X) t x, nth_error l t = Some x -> t < length l.
  Proof. intros. apply nth_error_Some. congruence. Qed.

  Definition done_dec (p : Prog) : {Done = p} + {Done <> p}.
  Proof. destruct p; [left; reflexivity|right; discriminate..]. Defined.

  (** ** Disjoint footprints *)
  Section Disjoint.
    Variable R W : nat -> Loc -> Prop.
    Hypothesis Hdis : forall t u l, t <> u -> W t l -> ~ R u l /\ ~ W u l.
    Variable m0 : Mem.
    Variable fin : nat -> Mem.

    (** [ns]: steps that each thread still needs. *)
    Record DInv (ns : list nat) (m : Mem) (ts : list Prog) : Prop := {
      d_len : length ns = length ts;
      d_run : forall t p n, nth_error ts t = Some p -> nth_error ns t = Some n ->
        exists m', alone (R t) (W t) Done p m n m' /\ forall l, W t l -> m' l = fin t l;
      d_off : forall l, (forall t, t < length ts -> ~ W t l) -> m l = m0 l }.

    Lemma d_get : forall ns m ts t p, DInv ns m ts -> nth_error ts t = Some p ->
      exists n m', nth_error ns t = Some n /\ alone (R t) (W t) Done p m n m' /\ forall l, W t l -> m' l = fin t l.
    Proof.
      intros ns m ts t p I H. destruct (nth_error ns t) as [n|] eqn:E.
      - destruct (d_run _ _ _ I t p n H E) as (m' & X & Y). eauto.
      - apply nth_error_None in E. rewrite (d_len _ _ _ I) in E. apply nth_lt in H. lia.
    Qed.

    (** Thread [t] has moved to [p'] with [n'] steps to go, having changed at most its own locations. *)
    Lemma d_move : forall ns m ts t p m1 p' n', DInv ns m ts -> nth_error ts t = Some p -> (forall l, ~ W t l -> m1 l = m l) ->
      (exists m', alone (R t) (W t) Done p' m1 n' m' /\ forall l, W t l -> m' l = fin t l) -> DInv (set_nth t n' ns) m1 (set_nth t p' ts).
    Proof.
      intros ns m ts t p m1 p' n' I H Off Run. pose proof (nth_lt _ _ _ _ H) as Ht. pose proof (d_len _ _ _ I) as L. constructor.
      - rewrite !set_nth_length. auto.
      - intros u q n Hq Hn. rewrite set_nth_nth in Hq by auto. rewrite set_nth_nth in Hn by lia. destruct (Nat.eqb_spec t u) as [<-|Ne].
        + injection Hq as <-. injection Hn as <-. auto.
        + destruct (d_run _ _ _ I u q n Hq Hn) as (m' & X & Y).
          destruct (alone_frame _ _ _ _ _ _ _ X m1) as (m1' & X' & K).
          { intros l Hl. apply Off. intros Wt. destruct (Hdis t u l Ne Wt). tauto. }
          exists m1'. split; auto. intros l Hl. rewrite K by auto. auto.
      - intros l Hl. rewrite set_nth_length in Hl. rewrite Off by auto. apply (d_off _ _ _ I). auto.
    Qed.

    Lemma d_step : forall ns m ts s', DInv ns m ts -> step (Some (mkConf m ts None)) s' ->
      exists ns' m' ts', s' = Some (mkConf m' ts' None) /\ DInv ns' m' ts' /\ list_sum ns' < list_sum ns /\ length ts' = length ts.
    Proof.
      intros ns m ts s' I H. inversion H; subst; clear H;
        match goal with E : nth_error ts ?t = Some ?p |- _ => destruct (d_get _ _ _ _ _ I E) as (n & mf & En & Al & Fn) end;
        inversion Al; subst; try congruence.
      - exists (set_nth t n0 ns), m, (set_nth t (k v) ts). split; auto. split; [|split; [eapply set_nth_sum; eauto|apply set_nth_length]].
        eapply d_move; eauto. exists mf. split; auto. congruence.
      - exists (set_nth t n0 ns), (mset m l v), (set_nth t k ts). split; auto. split; [|split; [eapply set_nth_sum; eauto|apply set_nth_length]].
        eapply d_move; eauto. intros x Hx. apply mset_other. congruence.
    Qed.
    Lemma d_progress : forall ns m ts, DInv ns m ts -> Forall (eq Done) ts \/ exists s', step (Some (mkConf m ts None)) s'.
    Proof.
      intros ns m ts I. destruct (Forall_Exists_dec (eq Done) done_dec ts) as [F|F]; [now left|right].
      apply Exists_exists in F. destruct F as (p & Hp & Ne). apply In_nth_error in Hp. destruct Hp as (t & Ht).
      destruct (d_get _ _ _ _ _ I Ht) as (n & mf & En & Al & Fn). inversion Al; subst; try congruence; eexists.
      - eapply st_load; eauto.
      - eapply st_store; eauto.
    Qed.
    Lemma d_final : forall ns m ts, DInv ns m ts -> Forall (eq Done) ts -> forall t l, t < length ts -> W t l -> m l = fin t l.
    Proof.
      intros ns m ts I F t l Ht Hl. destruct (nth_error ts t) as [p|] eqn:E; [|apply nth_error_None in E; lia].
      destruct (d_get _ _ _ _ _ I E) as (n & mf & En & Al & Fn). rewrite Forall_forall in F. rewrite <- (F p (nth_error_In _ _ E)) in Al.
      inversion Al; subst. auto.
    Qed.
    Lemma d_norace : forall ns m ts, DInv ns m ts -> ~ race (Some (mkConf m ts None)).
    Proof.
      intros ns m ts I (c & t & u & pt & pu & l & E & Ne & Et & Eu & Wt & RWu). injection E as <-. cbn in Et, Eu.
      destruct (d_get _ _ _ _ _ I Et) as (n & mf & _ & Al & _). destruct (d_get _ _ _ _ _ I Eu) as (n' & mf' & _ & Al' & _).
      destruct pt; cbn in Wt; try contradiction. subst l0. inversion Al; subst. destruct (Hdis t u l Ne) as (X & Y); auto.
      destruct pu; cbn in RWu; destruct RWu as [Z|Z]; try contradiction; subst l0; inversion Al'; subst; auto.
    Qed.

    Theorem disjoint_parallel : forall ns ts, DInv ns m0 ts ->
      parallel ts m0 (fun m => (forall t l, t < length ts -> W t l -> m l = fin t l) /\ (forall l, (forall t, t < length ts -> ~ W t l) -> m l = m0 l)).
    Proof.
      intros ns ts I. split.
      - assert (K : forall s s', reaches s s' -> forall ns m ts, DInv ns m ts -> s = Some (mkConf m ts None) -> ~ race s').
        { intros s s' H. induction H as [s|s s1 s2 H1 H2 IH]; intros ns' m' ts' I' ->; [eapply d_norace; eauto|].
          destruct (d_step _ _ _ _ I' H1) as (ns2 & m2 & ts2 & -> & I2 & _). eapply IH; eauto. }
        intros s' H. eapply K; eauto.
      - assert (K : forall N ns m ts', DInv ns m ts' -> list_sum ns < N -> length ts' = length ts -> inevitably (fun m =>
            (forall t l, t < length ts -> W t l -> m l = fin t l) /\ (forall l, (forall t, t < length ts -> ~ W t l) -> m l = m0 l)) (Some (mkConf m ts' None))).
        { induction N; intros ns' m ts' I' L Len; [lia|]. destruct (d_progress _ _ _ I') as [F|P].
          - apply inev_now; auto. split; [intros; eapply d_final; eauto; lia|]. intros l Hl. apply (d_off _ _ _ I'). now rewrite Len.
          - apply inev_later; auto. intros s' Hs. destruct (d_step _ _ _ _ I' Hs) as (ns2 & m2 & ts2 & -> & I2 & L2 & E2). apply (IHN ns2); auto; lia. }
        eapply K; eauto.
    Qed.
  End Disjoint.

  (** ** A private phase followed by a critical section *)
  Section Critical.
    Variable X : Type.
    Variable M : X -> Mem.
    Variable J : X -> Prop.
    Variable RO S : Loc -> Prop.
    Hypothesis Hdis : forall l, RO l -> ~ S l.
    Hypothesis Hro : forall x y l, RO l -> M x l = M y l.
    Variable crit : nat -> Prog.
    Variable op : nat -> X -> X.
    Variable T : nat.
    Hypothesis Hcrit : forall t x, t < T -> J x -> J (op t x) /\ exists n, alone S S (Release Done) (crit t) (M x) n (M (op t x)).
    Variable x0 : X.
    Hypothesis J0 : J x0.

    Definition after (order : list nat) : X := fold_left (fun x t => op t x) order x0.
    Definition none : Loc -> Prop := fun _ => False.
    Definition pend (s : list (option nat)) : nat := list_sum (map (fun o => match o with Some _ => 1 | None => 0 end) s).
    Definition steps (s : list (option nat)) : nat := list_sum (map (fun o => match o with Some n => n | None => 0 end) s).

    (** [st]: for a thread that has not entered the critical section, the steps up to it; [order]: the
        threads that have entered it; [c]: steps to the end of the critical section being executed. *)
    Record CInv (st : list (option nat)) (order : list nat) (c : nat) (m : Mem) (ts : list Prog) (lk : option nat) : Prop := {
      c_len : length ts = T; c_len' : length st = T;
      c_pre : forall t p n, nth_error ts t = Some p -> nth_error st t = Some (Some n) -> exists mp mp', alone RO none (Acquire (crit t)) p mp n mp' /\ forall l, RO l -> mp l = M x0 l;
      c_nodup : NoDup order;
      c_in : forall t, In t order <-> nth_error st t = Some None;
      c_ro : forall l, RO l -> m l = M x0 l;
      c_free : lk = None -> m = M (after order) /\ c = 0;
      c_held : forall h, lk = Some h -> In h order /\ exists p c', nth_error ts h = Some p /\ c = Datatypes.S c' /\ alone S S (Release Done) p m c' (M (after order));
      c_done : forall t p, nth_error ts t = Some p -> nth_error st t = Some None -> lk <> Some t -> p = Done }.

    Lemma J_after : forall order, (forall t, In t order -> t < T) -> J (after order).
    Proof.
      intros order. unfold after. revert x0 J0. induction order; intros x Hx K; cbn; auto. apply IHorder; [|intros; apply K; now right].
      apply Hcrit; auto. apply K. now left.
    Qed.
    Lemma c_lt : forall st order c m ts lk t, CInv st order c m ts lk -> In t order -> t < T.
    Proof. intros st order c m ts lk t I H. apply (c_in _ _ _ _ _ _ I) in H. rewrite <- (c_len' _ _ _ _ _ _ I). eapply nth_lt; eauto. Qed.

    (** The three kinds of threads. *)
    Lemma c_get : forall st order c m ts lk t p, CInv st order c m ts lk -> nth_error ts t = Some p ->
      (exists n mp', nth_error st t = Some (Some n) /\ alone RO none (Acquire (crit t)) p m n mp') \/
      (lk = Some t /\ In t order /\ exists c', c = Datatypes.S c' /\ alone S S (Release Done) p m c' (M (after order))) \/ p = Done.
    Proof.
      intros st order c m ts lk t p I H. destruct (nth_error st t) as [[n|]|] eqn:E.
      - left. destruct (c_pre _ _ _ _ _ _ I t p n H E) as (mp & mp' & Al & K).
        destruct (alone_frame _ _ _ _ _ _ _ Al m) as (m1 & Al' & _).
        { intros l [Hl|[]]. rewrite (c_ro _ _ _ _ _ _ I l Hl). symmetry. auto. }
        eauto.
      - destruct (option_map (Nat.eqb t) lk) as [[|]|] eqn:EL.
        + destruct lk as [h|]; [|discriminate]. cbn in EL. injection EL as EL. apply Nat.eqb_eq in EL. subst h. right. left.
          destruct (c_held _ _ _ _ _ _ I t eq_refl) as (Hi & p' & c' & Hp & Hc & Al). rewrite H in Hp. injection Hp as <-. eauto 10.
        + right. right. eapply c_done; eauto. destruct lk as [h|]; [|discriminate]. cbn in EL. injection EL as EL. apply Nat.eqb_neq in EL. congruence.
        + right. right. eapply c_done; eauto. destruct lk; [discriminate|congruence].
      - apply nth_error_None in E. rewrite (c_len' _ _ _ _ _ _ I), <- (c_len _ _ _ _ _ _ I) in E. apply nth_lt in H. lia.
    Qed.

    Lemma pend_set : forall st t n n', nth_error st t = Some (Some n) -> pend (set_nth t (Some n') st) = pend st.
    Proof. induction st; intros [|t] n n' H; cbn in *; try discriminate; [injection H as ->; reflexivity|]. unfold pend, list_sum in *. cbn. now rewrite (IHst _ _ n' H). Qed.
    Lemma steps_set : forall st t n n', nth_error st t = Some (Some n) -> n' < n -> steps (set_nth t (Some n') st) < steps st.
    Proof. induction st; intros [|t] n n' H K; cbn in *; try discriminate; [injection H as ->; unfold steps, list_sum; cbn; lia|]. unfold steps, list_sum in *. cbn. specialize (IHst _ _ _ H K). lia. Qed.
    Lemma pend_none : forall st t n, nth_error st t = Some (Some n) -> pend (set_nth t None st) < pend st.
    Proof. induction st; intros [|t] n H; cbn in *; try discriminate; [injection H as ->; unfold pend, list_sum; cbn; lia|]. unfold pend, list_sum in *. cbn. specialize (IHst _ _ H). lia. Qed.

    Lemma c_step : forall st order c m ts lk s', CInv st order c m ts lk -> step (Some (mkConf m ts lk)) s' ->
      exists st' order' c' m' ts' lk', s' = Some (mkConf m' ts' lk') /\ CInv st' order' c' m' ts' lk' /\
        (pend st' < pend st \/ pend st' = pend st /\ steps st' + c' < steps st + c).
    Proof.
      intros st order c m ts lk s' I H.
      assert (Hl : forall l, S l -> ~ RO l) by (intros l H1 H2; eapply Hdis; eauto).
      pose proof (c_len _ _ _ _ _ _ I) as L1. pose proof (c_len' _ _ _ _ _ _ I) as L2.
      inversion H; subst; clear H;
        match goal with E : nth_error ts ?t = Some ?p |- _ => pose proof (nth_lt _ _ _ _ E) as Ht; destruct (c_get _ _ _ _ _ _ _ _ I E) as [(n & mp' & En & Al)|[(El & Hi & c' & Ec & Al)|D]] end;
        try discriminate; inversion Al; subst; try contradiction; try congruence.
      - (* a load before the critical section *)
        exists (set_nth t (Some n0) st), order, c, m, (set_nth t (k v) ts), lk. split; auto. split; [|right; split; [eapply pend_set; eauto|]].
        2:{ pose proof (steps_set st t (Datatypes.S n0) n0 En ltac:(lia)). lia. }
        constructor; rewrite ?set_nth_length; auto.
        + intros u q n Hq Hn. rewrite set_nth_nth in Hq by auto. rewrite set_nth_nth in Hn by lia. destruct (Nat.eqb_spec t u) as [<-|Ne].
          * injection Hq as <-. injection Hn as <-. exists m, mp'. split; [congruence|apply (c_ro _ _ _ _ _ _ I)].
          * eapply (c_pre _ _ _ _ _ _ I); eauto.
        + apply (c_nodup _ _ _ _ _ _ I).
        + intros u. rewrite set_nth_nth by lia. rewrite (c_in _ _ _ _ _ _ I). destruct (Nat.eqb_spec t u) as [<-|Ne]; [|tauto]. rewrite En. split; congruence.
        + apply (c_ro _ _ _ _ _ _ I).
        + apply (c_free _ _ _ _ _ _ I).
        + intros h Eh. destruct (c_held _ _ _ _ _ _ I h Eh) as (Hi & p & c1 & Hp & Hc & Al'). split; auto. exists p, c1. split; auto.
          rewrite set_nth_nth by auto. destruct (Nat.eqb_spec t h) as [<-|Ne]; auto. apply (c_in _ _ _ _ _ _ I) in Hi. congruence.
        + intros u q Hq Hu. rewrite set_nth_nth in Hq by auto. rewrite set_nth_nth in Hu by lia. destruct (Nat.eqb_spec t u) as [<-|Ne]; [discriminate|]. eapply (c_done _ _ _ _ _ _ I); eauto.
      - (* a load in the critical section *)
        exists st, order, (Datatypes.S n), m, (set_nth t (k v) ts), (Some t). split; auto. split; [|right; split; [auto|lia]].
        constructor; rewrite ?set_nth_length; auto; try apply I; try discriminate.
        + intros u q n1 Hq Hn. rewrite set_nth_nth in Hq by auto. destruct (Nat.eqb_spec t u) as [<-|Ne]; [|eapply (c_pre _ _ _ _ _ _ I); eauto].
          apply (c_in _ _ _ _ _ _ I) in Hi. congruence.
        + intros h Eh. injection Eh as <-. split; auto. exists (k v), n. split; [rewrite set_nth_nth, Nat.eqb_refl by auto; auto|]. split; auto. congruence.
        + intros u q Hq Hu Hne. rewrite set_nth_nth in Hq by auto. destruct (Nat.eqb_spec t u) as [<-|Ne]; [congruence|]. eapply (c_done _ _ _ _ _ _ I); eauto.
      - (* a store in the critical section *)
        exists st, order, (Datatypes.S n), (mset m l v), (set_nth t k ts), (Some t). split; auto. split; [|right; split; [auto|lia]].
        constructor; rewrite ?set_nth_length; auto; try apply I; try discriminate.
        + intros u q n1 Hq Hn. rewrite set_nth_nth in Hq by auto. destruct (Nat.eqb_spec t u) as [<-|Ne]; [|eapply (c_pre _ _ _ _ _ _ I); eauto].
          apply (c_in _ _ _ _ _ _ I) in Hi. congruence.
        + intros x Hx. rewrite mset_other; [apply (c_ro _ _ _ _ _ _ I); auto|]. intros ->. eapply Hl; eauto.
        + intros h Eh. injection Eh as <-. split; auto. exists k, n. split; [rewrite set_nth_nth, Nat.eqb_refl by auto; auto|]. split; auto.
        + intros u q Hq Hu Hne. rewrite set_nth_nth in Hq by auto. destruct (Nat.eqb_spec t u) as [<-|Ne]; [congruence|]. eapply (c_done _ _ _ _ _ _ I); eauto.
      - (* entering the critical section *)
        destruct (c_free _ _ _ _ _ _ I eq_refl) as (Em & ->).
        assert (Ord : forall u, In u order -> u < T) by (intros; eapply c_lt; eauto).
        destruct (Hcrit t (after order)) as (J1 & n & Al'); [lia|apply J_after; auto|].
        assert (Ea : after (order ++ [t]) = op t (after order)) by (unfold after; now rewrite fold_left_app).
        exists (set_nth t None st), (order ++ [t]), (Datatypes.S n), mp', (set_nth t (crit t) ts), (Some t). split; auto. split; [|left; eapply pend_none; eauto].
        constructor; rewrite ?set_nth_length; auto; try discriminate.
        + intros u q n1 Hq Hn. rewrite set_nth_nth in Hq by auto. rewrite set_nth_nth in Hn by lia. destruct (Nat.eqb_spec t u) as [<-|Ne]; [discriminate|]. eapply (c_pre _ _ _ _ _ _ I); eauto.
        + eapply Permutation_NoDup; [apply Permutation_cons_append|]. constructor; [|apply (c_nodup _ _ _ _ _ _ I)]. rewrite (c_in _ _ _ _ _ _ I). congruence.
        + intros u. rewrite set_nth_nth by lia. rewrite in_app_iff, (c_in _ _ _ _ _ _ I). cbn. destruct (Nat.eqb_spec t u) as [<-|Ne]; [tauto|]. intuition congruence.
        + apply (c_ro _ _ _ _ _ _ I).
        + intros h Eh. injection Eh as <-. split; [apply in_or_app; right; now left|]. exists (crit t), n. split; [rewrite set_nth_nth, Nat.eqb_refl by auto; auto|]. split; auto.
          rewrite Ea, Em. auto.
        + intros u q Hq Hu Hne. rewrite set_nth_nth in Hq by auto. rewrite set_nth_nth in Hu by lia. destruct (Nat.eqb_spec t u) as [<-|Ne]; [congruence|]. eapply (c_done _ _ _ _ _ _ I); eauto. discriminate.
      - (* leaving it *)
        exists st, order, 0, (M (after order)), (set_nth t Done ts), None. split; auto. split; [|right; split; [auto|lia]].
        constructor; rewrite ?set_nth_length; auto; try apply I; try discriminate.
        + intros u q n1 Hq Hn. rewrite set_nth_nth in Hq by auto. destruct (Nat.eqb_spec t u) as [<-|Ne]; [|eapply (c_pre _ _ _ _ _ _ I); eauto].
          apply (c_in _ _ _ _ _ _ I) in Hi. congruence.
        + intros u q Hq Hu Hne. rewrite set_nth_nth in Hq by auto. destruct (Nat.eqb_spec t u) as [<-|Ne]; [congruence|]. eapply (c_done _ _ _ _ _ _ I); eauto. congruence.
    Qed.

    Lemma c_progress : forall st order c m ts lk, CInv st order c m ts lk -> Forall (eq Done) ts /\ lk = None \/ exists s', step (Some (mkConf m ts lk)) s'.
    Proof.
      intros st order c m ts lk I. destruct lk as [h|].
      - right. destruct (c_held _ _ _ _ _ _ I h eq_refl) as (Hi & p & c' & Hp & Hc & Al). inversion Al; subst; eexists.
        + eapply st_release; eauto.
        + eapply st_load; eauto.
        + eapply st_store; eauto.
      - destruct (Forall_Exists_dec (eq Done) done_dec ts) as [F|F]; [now left|right].
        apply Exists_exists in F. destruct F as (p & Hp & Ne). apply In_nth_error in Hp. destruct Hp as (t & Ht).
        destruct (c_get _ _ _ _ _ _ _ _ I Ht) as [(n & mp' & En & Al)|[(El & _)|D]]; [|discriminate|congruence].
        inversion Al; subst; try contradiction; eexists; [eapply st_acquire|eapply st_load]; eauto.
    Qed.
    Lemma c_norace : forall st order c m ts lk, CInv st order c m ts lk -> ~ race (Some (mkConf m ts lk)).
    Proof.
      intros st order c m ts lk I (cf & t & u & pt & pu & l & E & Ne & Et & Eu & Wt & RWu). injection E as <-. cbn in Et, Eu.
      destruct pt; cbn in Wt; try contradiction. subst l0.
      destruct (c_get _ _ _ _ _ _ _ _ I Et) as [(n & mp' & En & Al)|[(El & Hi & c' & Ec & Al)|D]]; [inversion Al; subst; contradiction| |discriminate].
      inversion Al; subst. destruct (c_get _ _ _ _ _ _ _ _ I Eu) as [(n1 & mp' & En & Al')|[(El' & _)|D]]; [|congruence|subst; cbn in RWu; tauto].
      destruct pu; cbn in RWu; destruct RWu as [Z|Z]; try contradiction; subst l0; inversion Al'; subst; try contradiction. eapply Hdis; eauto.
    Qed.
    Lemma c_final : forall st order c m ts, CInv st order c m ts None -> Forall (eq Done) ts -> Permutation order (seq 0 T) /\ m = M (after order).
    Proof.
      intros st order c m ts I F. split; [|apply (c_free _ _ _ _ _ _ I); auto].
      apply NoDup_Permutation; [apply I|apply seq_NoDup|]. intros t. rewrite in_seq, (c_in _ _ _ _ _ _ I). split.
      - intros K. apply nth_lt in K. rewrite (c_len' _ _ _ _ _ _ I) in K. lia.
      - intros K. destruct (nth_error st t) as [[n|]|] eqn:E; auto.
        + destruct (nth_error ts t) as [p|] eqn:Ep; [|apply nth_error_None in Ep; rewrite (c_len _ _ _ _ _ _ I) in Ep; lia].
          rewrite Forall_forall in F. rewrite <- (F p (nth_error_In _ _ Ep)) in Ep.
          destruct (c_get _ _ _ _ _ _ _ _ I Ep) as [(n1 & mp' & En & Al)|[(El & _)|D]]; [inversion Al|discriminate|].
          destruct (c_pre _ _ _ _ _ _ I t _ _ Ep E) as (mp & mp' & Al & _). inversion Al.
        + apply nth_error_None in E. rewrite (c_len' _ _ _ _ _ _ I) in E. lia.
    Qed.

    Theorem critical_parallel : forall ts, length ts = T ->
      (forall t p, nth_error ts t = Some p -> exists n m', alone RO none (Acquire (crit t)) p (M x0) n m') ->
      parallel ts (M x0) (fun m => exists order, Permutation order (seq 0 T) /\ m = M (after order)).
    Proof.
      intros ts L H.
      assert (K : exists st, length st = T /\ forall t p, nth_error ts t = Some p -> exists n m', nth_error st t = Some (Some n) /\ alone RO none (Acquire (crit t)) p (M x0) n m').
      { clear - L H. revert L H. generalize T crit. induction ts as [|p ts IH]; intros T' cr L H; [exists []; split; auto; intros [|t] q Hq; discriminate|].
        destruct (H 0 p eq_refl) as (n & m' & Al). destruct (IH (pred T') (fun t => cr (Datatypes.S t))) as (st & Ls & Hs); [cbn in L; lia|intros t q Hq; apply (H (Datatypes.S t) q Hq)|].
        exists (Some n :: st). split; [cbn in *; lia|]. intros [|t] q Hq; cbn in Hq; [injection Hq as <-; cbn; eauto|apply Hs; auto]. }
      destruct K as (st & Ls & Hs).
      assert (Sn : forall t, nth_error st t <> Some None).
      { intros t E. destruct (nth_error ts t) as [p|] eqn:Ep; [destruct (Hs t p Ep) as (n & m' & E' & _); congruence|]. apply nth_error_None in Ep. apply nth_lt in E. lia. }
      assert (I0 : CInv st [] 0 (M x0) ts None).
      { constructor; auto; try discriminate.
        - intros t p n Hp Hn. destruct (Hs t p Hp) as (n' & m' & E' & Al). rewrite Hn in E'. injection E' as <-. eauto.
        - constructor.
        - intros t. split; [intros []|intros E; exfalso; eapply Sn; eauto].
        - intros t p _ E. exfalso. eapply Sn; eauto. }
      split.
      - assert (K : forall s s', reaches s s' -> forall st order c m ts lk, CInv st order c m ts lk -> s = Some (mkConf m ts lk) -> ~ race s').
        { intros s s' Hr. induction Hr as [s|s s1 s2 H1 H2 IH]; intros st' o' c' m' ts' lk' I' ->; [eapply c_norace; eauto|].
          destruct (c_step _ _ _ _ _ _ _ I' H1) as (st2 & o2 & c2 & m2 & ts2 & lk2 & -> & I2 & _). eapply IH; eauto. }
        intros s' Hr. eapply K; eauto.
      - assert (K : forall P N st order c m ts lk, CInv st order c m ts lk -> pend st < P -> steps st + c < N ->
            inevitably (fun m => exists order, Permutation order (seq 0 T) /\ m = M (after order)) (Some (mkConf m ts lk))).
        { induction P; [lia|]. induction N; [lia|]. intros st' o' c' m' ts' lk' I' LP LN. destruct (c_progress _ _ _ _ _ _ I') as [(F & ->)|Pr].
          - apply inev_now; auto. exists o'. eapply c_final; eauto.
          - apply inev_later; auto. intros s' Hst. destruct (c_step _ _ _ _ _ _ _ I' Hst) as (st2 & o2 & c2 & m2 & ts2 & lk2 & -> & I2 & [D|[D1 D2]]).
            + eapply (IHP (Datatypes.S (steps st2 + c2))); eauto; lia.
            + eapply IHN; eauto; lia. }
        eapply (K (Datatypes.S (pend st)) (Datatypes.S (steps st + 0))); eauto; lia.
    Qed.
  End Critical.
End ThreadProofs.
