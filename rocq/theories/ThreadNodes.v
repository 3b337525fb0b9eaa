(** * ThreadNodes: the parallel loops over nodes and the two projections with a critical section. *)
From Coq Require Import ZArith Lia List Bool Permutation FunctionalExtensionality.
From Verif Require Import Num Tools Lin Types Remesh Objects Transfer Spec ResProofs PloopProofs Threads SpecThreads ThreadProofs ThreadLoops ThreadParts.
Import ListNotations.
Local Open Scope num_scope.

Section Nodes.
  Context {A : Type} {NA : Num A} {G : Geo A}.
  Notation Prog := (Prog A).
  Notation Mem := (Mem A).

  Definition gowner (l : Loc) : option Z := match l with GM i | GV i | GFlip i | GF i | GFr i => Some i | _ => None end.
  Variable P : Particles A.
  Variable cnt : nat.
  Variable ex : bool.
  Definition gm (nodes : list (Node A)) : Mem := mem_of P nodes cnt ex.

  Lemma gm_at : forall l l' loc z, length l = length l' -> gowner loc = Some z -> slot l z = slot l' z -> gm l loc = gm l' loc.
  Proof. intros l l' loc z L H E. destruct loc; cbn in H; try discriminate; injection H as ->; unfold gm; cbn; rewrite E; auto. Qed.
  Lemma gm_no : forall l l' loc, gowner loc = None -> gm l loc = gm l' loc.
  Proof. intros l l' loc H. destruct loc; cbn in H; try discriminate; unfold gm; cbn; auto. Qed.
  Lemma gm_set : forall l i nd nd' loc v, nth_error l i = Some nd -> gowner loc = Some (Z.of_nat i) -> gm (set_nth i nd' l) loc = Some v ->
    (forall loc', gowner loc' = Some (Z.of_nat i) -> loc' <> loc -> gm (set_nth i nd' l) loc' = gm l loc') -> mset (gm l) loc v = gm (set_nth i nd' l).
  Proof.
    intros l i nd nd' loc v Hq Ho Hv H. apply functional_extensionality. intros x. unfold mset. destruct (Loc_eq_dec loc x) as [<-|Ne]; [auto|].
    pose proof (nth_lt _ _ _ _ Hq) as Hi.
    destruct (gowner x) as [z|] eqn:Ex; [|apply gm_no; auto].
    destruct (Z.eqb_spec (Z.of_nat i) z) as [<-|Nz]; [rewrite H; auto|].
    apply (gm_at _ _ _ z); auto; [now rewrite set_nth_length|]. rewrite slot_set by auto. destruct (Z.eqb_spec (Z.of_nat i) z); [contradiction|auto].
  Qed.

  Section Moves.
    Variable R W : Loc -> Prop.
    Variable E : Prog.
    Variable i : nat.
    Hypothesis Hown : forall loc, gowner loc = Some (Z.of_nat i) -> R loc /\ W loc.

    Ltac ld := intros l q k n m' Hq H; eapply al_load; [apply Hown; reflexivity|unfold gm; cbn; rewrite slot_nat, Hq; reflexivity|exact H].
    Lemma ld_m : forall l q k n m', nth_error l i = Some q -> alone R W E (k (nd_m q)) (gm l) n m' -> alone R W E (loadA (GM (Z.of_nat i)) k) (gm l) (S n) m'.
    Proof. ld. Qed.
    Lemma ld_nv : forall l q k n m', nth_error l i = Some q -> alone R W E (k (nd_v q)) (gm l) n m' -> alone R W E (loadV (GV (Z.of_nat i)) k) (gm l) (S n) m'.
    Proof. ld. Qed.
    Lemma ld_f : forall l q k n m', nth_error l i = Some q -> alone R W E (k (nd_f q)) (gm l) n m' -> alone R W E (loadV (GF (Z.of_nat i)) k) (gm l) (S n) m'.
    Proof. ld. Qed.
    Lemma ld_fr : forall l q k n m', nth_error l i = Some q -> alone R W E (k (nd_fr q)) (gm l) n m' -> alone R W E (loadA (GFr (Z.of_nat i)) k) (gm l) (S n) m'.
    Proof. ld. Qed.

    Ltac st := intros l q y k n m' Hq H; pose proof (nth_lt _ _ _ _ Hq) as Hi; eapply al_store;
      [apply Hown; reflexivity|unfold gm; cbn; rewrite slot_nat, Hq; discriminate|
       erewrite gm_set; [exact H|eassumption|reflexivity|unfold gm; cbn; rewrite slot_set, Z.eqb_refl by auto; reflexivity|
         intros loc Ho Ne; destruct loc; cbn in Ho; try discriminate; injection Ho as ->; try congruence;
         unfold gm; cbn; rewrite slot_set, Z.eqb_refl, slot_nat, Hq by auto; reflexivity]].
    Lemma st_m : forall l q y k n m', nth_error l i = Some q -> alone R W E k (gm (set_nth i (mkNode y (nd_v q) (nd_flip q) (nd_f q) (nd_fr q)) l)) n m' -> alone R W E (Store (GM (Z.of_nat i)) (VA y) k) (gm l) (S n) m'.
    Proof. st. Qed.
    Lemma st_nv : forall l q y k n m', nth_error l i = Some q -> alone R W E k (gm (set_nth i (mkNode (nd_m q) y (nd_flip q) (nd_f q) (nd_fr q)) l)) n m' -> alone R W E (Store (GV (Z.of_nat i)) (VV y) k) (gm l) (S n) m'.
    Proof. st. Qed.
    Lemma st_nflip : forall l q y k n m', nth_error l i = Some q -> alone R W E k (gm (set_nth i (mkNode (nd_m q) (nd_v q) y (nd_f q) (nd_fr q)) l)) n m' -> alone R W E (Store (GFlip (Z.of_nat i)) (VV y) k) (gm l) (S n) m'.
    Proof. st. Qed.
    Lemma st_f : forall l q y k n m', nth_error l i = Some q -> alone R W E k (gm (set_nth i (mkNode (nd_m q) (nd_v q) (nd_flip q) y (nd_fr q)) l)) n m' -> alone R W E (Store (GF (Z.of_nat i)) (VV y) k) (gm l) (S n) m'.
    Proof. st. Qed.
    Lemma st_fr : forall l q y k n m', nth_error l i = Some q -> alone R W E k (gm (set_nth i (mkNode (nd_m q) (nd_v q) (nd_flip q) (nd_f q) y) l)) n m' -> alone R W E (Store (GFr (Z.of_nat i)) (VA y) k) (gm l) (S n) m'.
    Proof. st. Qed.
  End Moves.

  Ltac nx := first [eassumption|eapply set_at; eassumption].
  Ltac go := repeat first
    [ eapply ld_m; [eassumption|nx|]; cbv beta | eapply ld_nv; [eassumption|nx|]; cbv beta | eapply ld_f; [eassumption|nx|]; cbv beta | eapply ld_fr; [eassumption|nx|]; cbv beta
    | eapply st_m; [eassumption|nx|]; rewrite ?set_set | eapply st_nv; [eassumption|nx|]; rewrite ?set_set | eapply st_nflip; [eassumption|nx|]; rewrite ?set_set
    | eapply st_f; [eassumption|nx|]; rewrite ?set_set | eapply st_fr; [eassumption|nx|]; rewrite ?set_set ].

  Variable p : Par A.
  Notation it := (iteration (Node A) gm gowner).

  Lemma average_iteration : forall i nd, it (average_iter p) i nd (average_node p nd).
  Proof.
    intros i nd R W E l k n m' Ho Hn Hq H. unfold average_iter, average_node in *. cbv zeta.
    destruct (nd_m nd >? #0) eqn:C; destruct (use_mibf p) eqn:U; eexists; (eapply ld_m; [eassumption|nx|]; cbv beta; rewrite C); go; exact H.
  Qed.
  Lemma set_id : forall X (l : list X) i x, nth_error l i = Some x -> set_nth i x l = l.
  Proof. induction l; intros [|i] x H; cbn in *; try discriminate; [congruence|]. now rewrite IHl. Qed.
  Lemma euler_iteration : forall plates dt grav nl i X nd nd', rd nl (Z.of_nat i) = Ok (Z.of_nat i, X) -> euler_node p plates dt grav X nd = Ok nd' ->
    it (euler_iter p plates dt grav nl) i nd nd'.
  Proof.
    intros plates dt grav nl i X nd nd' Hl He R W E l k n m' Ho Hn Hq H. unfold euler_iter. rewrite Hl. cbn [ret fst snd]. cbv zeta.
    unfold euler_node in He. cbv zeta in He. destruct (nd_m nd >? #0) eqn:C.
    - apply bind_Ok in He. destruct He as (new & En & He). apply Ok_inj in He. subst nd'. eexists. eapply ld_m; [eassumption|nx|]; cbv beta. rewrite C. go. rewrite En. cbn [ret]. go. exact H.
    - apply Ok_inj in He. subst nd'. rewrite set_id in H by auto. eexists. eapply ld_m; [eassumption|nx|]; cbv beta. rewrite C. exact H.
  Qed.

  (** ** Private phases *)
  Variable axes : list (Axis A).
  Definition RO (l : Loc) : Prop := powner l <> None.
  Definition SH (l : Loc) : Prop := gowner l <> None.
  Lemma ro_sh : forall l, RO l -> ~ SH l.
  Proof. intros [] H K; unfold RO, SH in *; cbn in *; congruence. Qed.

  Section Private.
    Variable W : Loc -> Prop.
    Variable E : Prog.
    Variable nodes : list (Node A).
    Notation run := (fun pr n m' => alone RO W E pr (gm nodes) n m').
    Ltac ldp Hq H := eapply al_load; [unfold RO; cbn; discriminate|unfold gm; cbn; rewrite (slot_rd _ _ _ _ Hq); reflexivity|exact H].

    Lemma spread_run : forall xp vp B tau mui z items loc loc' k n m', rd (p_v P) z = Ok vp -> (if flip_ratio p <? #0 then rd (p_B P) z else Ok mzero) = Ok B ->
      (if use_mibf p then h <- rd (p_hist P) z ;; Ok (h_muI h) else Ok #0) = Ok mui ->
      foldM (p2g_item p xp vp B tau mui) items loc = Ok loc' -> run (k loc') n m' -> exists n', run (spread_prog p xp tau z items loc k) n' m'.
    Proof.
      intros xp vp B tau mui z items. induction items as [|it items IH]; intros loc loc' k n m' Hv HB Hm Hf H; cbn [foldM spread_prog] in *.
      - apply Ok_inj in Hf. subst. eauto.
      - apply bind_Ok in Hf. destruct Hf as (l1 & E1 & Hf). unfold p2g_item in E1. destruct (it_w it >? w_min).
        + destruct (IH l1 loc' k n m' Hv HB Hm Hf H) as (n1 & K).
          destruct (flip_ratio p <? #0), (use_mibf p).
          * apply bind_Ok in Hm. destruct Hm as (h & Eh & Hm). apply Ok_inj in Hm. subst mui. eexists.
            eapply al_load; [unfold RO; cbn; discriminate|unfold gm; cbn; rewrite (slot_rd _ _ _ _ Hv); reflexivity|]. cbv beta iota.
            eapply al_load; [unfold RO; cbn; discriminate|unfold gm; cbn; rewrite (slot_rd _ _ _ _ HB); reflexivity|]. cbv beta iota.
            eapply al_load; [unfold RO; cbn; discriminate|unfold gm; cbn; rewrite (slot_rd _ _ _ _ Eh); reflexivity|]. cbv beta iota. rewrite E1. exact K.
          * apply Ok_inj in Hm. subst mui. eexists.
            eapply al_load; [unfold RO; cbn; discriminate|unfold gm; cbn; rewrite (slot_rd _ _ _ _ Hv); reflexivity|]. cbv beta iota.
            eapply al_load; [unfold RO; cbn; discriminate|unfold gm; cbn; rewrite (slot_rd _ _ _ _ HB); reflexivity|]. cbv beta iota. rewrite E1. exact K.
          * apply bind_Ok in Hm. destruct Hm as (h & Eh & Hm). apply Ok_inj in Hm, HB. subst mui B. eexists.
            eapply al_load; [unfold RO; cbn; discriminate|unfold gm; cbn; rewrite (slot_rd _ _ _ _ Hv); reflexivity|]. cbv beta iota.
            eapply al_load; [unfold RO; cbn; discriminate|unfold gm; cbn; rewrite (slot_rd _ _ _ _ Eh); reflexivity|]. cbv beta iota. rewrite E1. exact K.
          * apply Ok_inj in Hm, HB. subst mui B. eexists.
            eapply al_load; [unfold RO; cbn; discriminate|unfold gm; cbn; rewrite (slot_rd _ _ _ _ Hv); reflexivity|]. cbv beta iota. rewrite E1. exact K.
        + apply Ok_inj in E1. subst l1. eapply IH; eauto.
    Qed.
    Lemma spread_thread_run : forall th loc loc' k n m', foldM (p2g_particle p axes P) th loc = Ok loc' -> run (k loc') n m' ->
      exists n', run (spread_thread p axes th loc k) n' m'.
    Proof.
      induction th as [|i th IH]; intros loc loc' k n m' Hf H; cbn [foldM spread_thread] in *; [apply Ok_inj in Hf; subst; eauto|]. cbv zeta.
      apply bind_Ok in Hf. destruct Hf as (l1 & E1 & Hf). destruct (IH l1 loc' k n m' Hf H) as (n1 & K).
      unfold p2g_particle in E1. cbv zeta in E1. apply bind_Ok in E1. destruct E1 as (xp & Ex & E1). apply bind_Ok in E1. destruct E1 as (tau & Et & E1).
      apply bind_Ok in E1. destruct E1 as (vp & Ev & E1). apply bind_Ok in E1. destruct E1 as (B & EB & E1). apply bind_Ok in E1. destruct E1 as (mui & Em & E1).
      apply bind_Ok in E1. destruct E1 as (items & Ei & E1).
      destruct (spread_run xp vp B tau mui (Z.of_nat i) items loc l1 (fun loc' => spread_thread p axes th loc' k) n1 m' Ev EB Em E1 K) as (n2 & K2).
      eexists.
      eapply al_load; [unfold RO; cbn; discriminate|unfold gm; cbn; rewrite (slot_rd _ _ _ _ Ex); reflexivity|]. cbv beta iota.
      eapply al_load; [unfold RO; cbn; discriminate|unfold gm; cbn; rewrite (slot_rd _ _ _ _ Et); reflexivity|]. cbv beta iota. rewrite Ei. exact K2.
    Qed.
    Lemma mspread_run : forall xp vp B z items loc loc' k n m', rd (p_v P) z = Ok vp -> (if flip_ratio p <? #0 then rd (p_B P) z else Ok mzero) = Ok B ->
      foldM (musl_item p xp vp B) items loc = Ok loc' -> run (k loc') n m' -> exists n', run (mspread_prog p xp z items loc k) n' m'.
    Proof.
      intros xp vp B z items. induction items as [|it items IH]; intros loc loc' k n m' Hv HB Hf H; cbn [foldM mspread_prog] in *.
      - apply Ok_inj in Hf. subst. eauto.
      - apply bind_Ok in Hf. destruct Hf as (l1 & E1 & Hf). unfold musl_item in E1. destruct (it_w it >? w_min).
        + destruct (IH l1 loc' k n m' Hv HB Hf H) as (n1 & K). destruct (flip_ratio p <? #0).
          * eexists.
            eapply al_load; [unfold RO; cbn; discriminate|unfold gm; cbn; rewrite (slot_rd _ _ _ _ Hv); reflexivity|]. cbv beta iota.
            eapply al_load; [unfold RO; cbn; discriminate|unfold gm; cbn; rewrite (slot_rd _ _ _ _ HB); reflexivity|]. cbv beta iota. rewrite E1. exact K.
          * apply Ok_inj in HB. subst B. eexists.
            eapply al_load; [unfold RO; cbn; discriminate|unfold gm; cbn; rewrite (slot_rd _ _ _ _ Hv); reflexivity|]. cbv beta iota. rewrite E1. exact K.
        + apply Ok_inj in E1. subst l1. eapply IH; eauto.
    Qed.
    Lemma mspread_thread_run : forall th loc loc' k n m', foldM (musl_particle p axes P) th loc = Ok loc' -> run (k loc') n m' ->
      exists n', run (mspread_thread p axes th loc k) n' m'.
    Proof.
      induction th as [|i th IH]; intros loc loc' k n m' Hf H; cbn [foldM mspread_thread] in *; [apply Ok_inj in Hf; subst; eauto|]. cbv zeta.
      apply bind_Ok in Hf. destruct Hf as (l1 & E1 & Hf). destruct (IH l1 loc' k n m' Hf H) as (n1 & K).
      unfold musl_particle in E1. cbv zeta in E1. apply bind_Ok in E1. destruct E1 as (xp & Ex & E1).
      apply bind_Ok in E1. destruct E1 as (vp & Ev & E1). apply bind_Ok in E1. destruct E1 as (B & EB & E1).
      apply bind_Ok in E1. destruct E1 as (items & Ei & E1).
      destruct (mspread_run xp vp B (Z.of_nat i) items loc l1 (fun loc' => mspread_thread p axes th loc' k) n1 m' Ev EB E1 K) as (n2 & K2).
      eexists.
      eapply al_load; [unfold RO; cbn; discriminate|unfold gm; cbn; rewrite (slot_rd _ _ _ _ Ex); reflexivity|]. cbv beta iota. rewrite Ei. exact K2.
    Qed.
  End Private.

  (** ** Critical sections *)
  Lemma set_app : forall X (a : list X) x b y, set_nth (length a) y (a ++ x :: b) = a ++ y :: b.
  Proof. induction a; intros; cbn; auto. now rewrite IHa. Qed.
  Lemma nth_app : forall X (a : list X) x b, nth_error (a ++ x :: b) (length a) = Some x.
  Proof. induction a; intros; cbn; auto. Qed.

  Lemma merge_run : forall E loc rest done k n m', length loc = length rest -> alone SH SH E k (gm (done ++ merge p rest loc)) n m' ->
    exists n', alone SH SH E (merge_prog p loc (Z.of_nat (length done)) k) (gm (done ++ rest)) n' m'.
  Proof.
    intros E loc. induction loc as [|b loc IH]; intros [|a rest] done k n m' L H; cbn in L; try discriminate; [cbn in *; eauto|].
    cbn [merge_prog]. pose proof (nth_app _ done a rest) as Hq.
    assert (Ho : forall l, gowner l = Some (Z.of_nat (length done)) -> SH l /\ SH l) by (intros l Hl; unfold SH; rewrite Hl; split; discriminate).
    destruct (IH rest (done ++ [node_add p a b]) k n m') as (n1 & K); [lia|rewrite <- app_assoc; exact H|].
    rewrite app_length in K. cbn [length] in K. rewrite Nat2Z.inj_add in K. rewrite <- app_assoc in K. cbn [app] in K.
    unfold node_add in K. change (Z.of_nat 1) with 1%Z in K.
    destruct (use_mibf p); eexists; go; cbn [nd_m nd_v nd_flip nd_f nd_fr]; rewrite set_app; exact K.
  Qed.
  Lemma mmerge_run : forall E loc rest done k n m', length loc = length rest -> alone SH SH E k (gm (done ++ musl_merge rest loc)) n m' ->
    exists n', alone SH SH E (mmerge_prog loc (Z.of_nat (length done)) k) (gm (done ++ rest)) n' m'.
  Proof.
    intros E loc. induction loc as [|b loc IH]; intros [|a rest] done k n m' L H; cbn in L; try discriminate; [cbn in *; eauto|].
    cbn [mmerge_prog]. pose proof (nth_app _ done a rest) as Hq.
    assert (Ho : forall l, gowner l = Some (Z.of_nat (length done)) -> SH l /\ SH l) by (intros l Hl; unfold SH; rewrite Hl; split; discriminate).
    destruct (IH rest (done ++ [mkNode (nd_m a) (vadd (nd_v a) (nd_v b)) (nd_flip a) (nd_f a) (nd_fr a)]) k n m') as (n1 & K); [lia|rewrite <- app_assoc; exact H|].
    rewrite app_length in K. cbn [length] in K. rewrite Nat2Z.inj_add in K. rewrite <- app_assoc in K. cbn [app] in K.
    change (Z.of_nat 1) with 1%Z in K. eexists; go; cbn [nd_m nd_v nd_flip nd_f nd_fr]; rewrite set_app; exact K.
  Qed.

  (** ** Both projections *)
  Section Projection.
    Variable part : list (Node A) -> nat -> res (list (Node A)).
    Variable mrg : list (Node A) -> list (Node A) -> list (Node A).
    Variable prog : list (Node A) -> Z -> Prog -> Prog.
    Variable spread : list nat -> list (Node A) -> (list (Node A) -> Prog) -> Prog.
    Hypothesis part_len : forall l i l', part l i = Ok l' -> length l' = length l.
    Hypothesis mrg_len : forall a b, length b = length a -> length (mrg a b) = length a.
    Hypothesis prog_run : forall E loc rest k n m', length loc = length rest -> alone SH SH E k (gm (mrg rest loc)) n m' -> exists n', alone SH SH E (prog loc 0 k) (gm rest) n' m'.
    Hypothesis spread_ok : forall W E nodes th loc loc' k n m', foldM part th loc = Ok loc' -> alone RO W E (k loc') (gm nodes) n m' -> exists n', alone RO W E (spread th loc k) (gm nodes) n' m'.
    Variable nodes : list (Node A).
    Definition accum (sched : list (list nat)) (g : list (Node A)) : res (list (Node A)) :=
      foldM (fun g th => l <- foldM part th (repeat zero_node (length nodes)) ;; Ok (mrg g l)) sched g.

    Lemma accum_locals : forall sched g g', accum sched g = Ok g' -> exists locs, Forall2 (fun th l => foldM part th (repeat zero_node (length nodes)) = Ok l) sched locs.
    Proof.
      induction sched as [|th sched IH]; intros g g' H; [exists []; constructor|]. cbn [accum foldM] in H. apply bind_Ok in H. destruct H as (g1 & E1 & H).
      apply bind_Ok in E1. destruct E1 as (l & El & _). destruct (IH _ _ H) as (locs & F). exists (l :: locs). constructor; auto.
    Qed.
    Lemma locals_len : forall th l, foldM part th (repeat zero_node (length nodes)) = Ok l -> length l = length nodes.
    Proof.
      intros th l H. assert (K : forall th a b, foldM part th a = Ok b -> length b = length a).
      { clear - part_len. induction th; intros x y H; cbn in H; [apply Ok_inj in H; subst; auto|]. apply bind_Ok in H. destruct H as (z & E & H). rewrite (IHth _ _ H). eapply part_len; eauto. }
      rewrite (K _ _ _ H). apply repeat_length.
    Qed.

    Theorem projection_parallel : forall sched g, accum sched nodes = Ok g ->
      parallel (map (fun th => spread th (repeat zero_node (length nodes)) (fun loc => Acquire (prog loc 0 (Release Done)))) sched) (gm nodes)
        (fun m => exists order g', Permutation order sched /\ accum order nodes = Ok g' /\ forall l, m l = gm g' l).
    Proof.
      intros sched g H. destruct (accum_locals _ _ _ H) as (locs & F2).
      assert (Ln : length locs = length sched) by (symmetry; eapply F2_length; eauto).
      set (crit := fun t => prog (nth t locs []) 0 (Release Done)). set (op := fun t g => mrg g (nth t locs [])).
      assert (At : forall t, t < length sched -> foldM part (nth t sched []) (repeat zero_node (length nodes)) = Ok (nth t locs [])).
      { intros t Ht. destruct (nth_error sched t) as [th|] eqn:E; [|apply nth_error_None in E; lia]. destruct (Forall2_nth_error _ _ _ _ _ F2 t th E) as (l & El & K).
        rewrite (nth_error_nth _ _ _ E), (nth_error_nth _ _ _ El). auto. }
      destruct (critical_parallel (list (Node A)) gm (fun g => length g = length nodes) RO SH ro_sh) with (crit := crit) (op := op) (T := length sched) (x0 := nodes)
        (ts := map (fun th => spread th (repeat zero_node (length nodes)) (fun loc => Acquire (prog loc 0 (Release Done)))) sched) as (Q1 & Q2).
      - intros x y l Hl. apply gm_no. unfold RO in Hl. destruct l; cbn in *; congruence.
      - intros t x Ht Hx. unfold op. pose proof (locals_len _ _ (At t Ht)) as Lt. split; [rewrite mrg_len; congruence|].
        unfold crit. eapply prog_run; [congruence|apply al_end].
      - reflexivity.
      - apply map_length.
      - intros t pr Ht. rewrite nth_error_map in Ht. destruct (nth_error sched t) as [th|] eqn:E; [|discriminate]. cbn in Ht. injection Ht as <-.
        pose proof (nth_lt _ _ _ _ E) as Lt. destruct (spread_ok none (Acquire (crit t)) nodes th (repeat zero_node (length nodes)) (nth t locs []) (fun loc => Acquire (prog loc 0 (Release Done))) 0 (gm nodes)) as (n & K).
        + rewrite <- (nth_error_nth _ _ [] E). auto.
        + apply al_end.
        + eauto.
      - split; auto.
        assert (Mono : forall (P Q : Mem -> Prop) s, (forall m, P m -> Q m) -> inevitably P s -> inevitably Q s).
        { clear. intros P Q s PQ I. induction I; [apply inev_now; auto|apply inev_later; auto]. }
        eapply Mono; [|exact Q2]. intros m (order & Hp & ->). exists (map (fun t => nth t sched []) order), (after _ op nodes order). split; [|split; auto].
        + transitivity (map (fun t => nth t sched []) (seq 0 (length sched))); [apply Permutation_map; auto|]. rewrite (seq_map_nth _ _ (fun x => x)); [now rewrite map_id|].
          intros i x Hx. apply nth_error_nth. auto.
        + assert (Lt : forall t, In t order -> t < length sched) by (intros t Ht; apply (Permutation_in _ Hp), in_seq in Ht; lia).
          clear - At Lt. unfold after, accum. generalize nodes at 2 3. induction order as [|t order IH]; intros g; [reflexivity|]. cbn [map foldM fold_left].
          rewrite At by (apply Lt; now left). cbn [bind]. apply IH. intros; apply Lt; now right.
    Qed.
  End Projection.
End Nodes.
