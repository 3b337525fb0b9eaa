(** * ThreadParts: the parallel loops over particles. *)
From Coq Require Import ZArith Lia List Bool Permutation FunctionalExtensionality.
From Verif Require Import Num Tools Lin Types Remesh Objects Transfer Spec ResProofs PloopProofs Threads SpecThreads ThreadProofs ThreadLoops.
Import ListNotations.
Local Open Scope num_scope.

Lemma Ok_inj : forall X (a b : X), Ok a = Ok b -> a = b.
Proof. intros X a b H. congruence. Qed.

Section Parts.
  Context {A : Type} {NA : Num A} {G : Geo A}.
  Notation Prog := (Prog A).
  Notation Mem := (Mem A).

  Definition powner (l : Loc) : option Z :=
    match l with PX i | PV i | PPic i | PFlip i | PHist i | PF i | PB i | PTau i => Some i | _ => None end.
  Definition set_pic (q : P1 A) (y : TV) : P1 A := mkP1 (q_x q) (q_v q) y (q_flip q) (q_h q) (q_F q) (q_B q) (q_tau q).
  Definition set_flip (q : P1 A) (y : TV) : P1 A := mkP1 (q_x q) (q_v q) (q_pic q) y (q_h q) (q_F q) (q_B q) (q_tau q).
  Definition set_h (q : P1 A) (y : Hist A) : P1 A := mkP1 (q_x q) (q_v q) (q_pic q) (q_flip q) y (q_F q) (q_B q) (q_tau q).
  Definition set_F (q : P1 A) (y : TM) : P1 A := mkP1 (q_x q) (q_v q) (q_pic q) (q_flip q) (q_h q) y (q_B q) (q_tau q).
  Definition set_B (q : P1 A) (y : TM) : P1 A := mkP1 (q_x q) (q_v q) (q_pic q) (q_flip q) (q_h q) (q_F q) y (q_tau q).
  Definition set_tau (q : P1 A) (y : TM) : P1 A := mkP1 (q_x q) (q_v q) (q_pic q) (q_flip q) (q_h q) (q_F q) (q_B q) y.

  Variable nodes : list (Node A).
  Variable cnt : nat.
  Variable ex : bool.
  Definition pm (l : list (P1 A)) : Mem := mem_of (pack l) nodes cnt ex.

  Lemma pm_at : forall l l' loc z, length l = length l' -> powner loc = Some z -> slot l z = slot l' z -> pm l loc = pm l' loc.
  Proof. intros l l' loc z L H E. destruct loc; cbn in H; try discriminate; injection H as ->; unfold pm, pack; cbn; rewrite !slot_map, E; auto. Qed.
  Lemma pm_no : forall l l' loc, length l = length l' -> powner loc = None -> pm l loc = pm l' loc.
  Proof. intros l l' loc L H. destruct loc; cbn in H; try discriminate; unfold pm, pack; cbn; auto. now rewrite !map_length, L. Qed.

  (** Changing one field of one particle changes one location. *)
  Lemma pm_set : forall l i q q' loc v, nth_error l i = Some q -> powner loc = Some (Z.of_nat i) -> pm (set_nth i q' l) loc = Some v ->
    (forall loc', powner loc' = Some (Z.of_nat i) -> loc' <> loc -> pm (set_nth i q' l) loc' = pm l loc') -> mset (pm l) loc v = pm (set_nth i q' l).
  Proof.
    intros l i q q' loc v Hq Ho Hv H. apply functional_extensionality. intros x. unfold mset. destruct (Loc_eq_dec loc x) as [<-|Ne]; [auto|].
    pose proof (nth_lt _ _ _ _ Hq) as Hi.
    destruct (powner x) as [z|] eqn:Ex; [|apply pm_no; auto; now rewrite set_nth_length].
    destruct (Z.eqb_spec (Z.of_nat i) z) as [<-|Nz]; [rewrite H; auto|].
    apply (pm_at _ _ _ z); auto; [now rewrite set_nth_length|]. rewrite slot_set by auto. destruct (Z.eqb_spec (Z.of_nat i) z); [contradiction|auto].
  Qed.

  Section Moves.
    Variable R W : Loc -> Prop.
    Variable E : Prog.
    Variable i : nat.
    Hypothesis Hown : forall loc, powner loc = Some (Z.of_nat i) -> R loc /\ W loc.
    Hypothesis Hnone : forall loc, powner loc = None -> R loc.

    Ltac ld := intros l q k n m' Hq H; eapply al_load; [apply Hown; reflexivity|unfold pm, pack; cbn; rewrite slot_map, slot_nat, Hq; reflexivity|exact H].
    Lemma ld_x : forall l q k n m', nth_error l i = Some q -> alone R W E (k (q_x q)) (pm l) n m' -> alone R W E (loadV (PX (Z.of_nat i)) k) (pm l) (S n) m'.
    Proof. ld. Qed.
    Lemma ld_v : forall l q k n m', nth_error l i = Some q -> alone R W E (k (q_v q)) (pm l) n m' -> alone R W E (loadV (PV (Z.of_nat i)) k) (pm l) (S n) m'.
    Proof. ld. Qed.
    Lemma ld_pic : forall l q k n m', nth_error l i = Some q -> alone R W E (k (q_pic q)) (pm l) n m' -> alone R W E (loadV (PPic (Z.of_nat i)) k) (pm l) (S n) m'.
    Proof. ld. Qed.
    Lemma ld_flip : forall l q k n m', nth_error l i = Some q -> alone R W E (k (q_flip q)) (pm l) n m' -> alone R W E (loadV (PFlip (Z.of_nat i)) k) (pm l) (S n) m'.
    Proof. ld. Qed.
    Lemma ld_h : forall l q k n m', nth_error l i = Some q -> alone R W E (k (q_h q)) (pm l) n m' -> alone R W E (loadH (PHist (Z.of_nat i)) k) (pm l) (S n) m'.
    Proof. ld. Qed.
    Lemma ld_F : forall l q k n m', nth_error l i = Some q -> alone R W E (k (q_F q)) (pm l) n m' -> alone R W E (loadM (PF (Z.of_nat i)) k) (pm l) (S n) m'.
    Proof. ld. Qed.
    Lemma ld_tau : forall l q k n m', nth_error l i = Some q -> alone R W E (k (q_tau q)) (pm l) n m' -> alone R W E (loadM (PTau (Z.of_nat i)) k) (pm l) (S n) m'.
    Proof. ld. Qed.
    Lemma ld_gv : forall z nd l k n m', rd nodes z = Ok nd -> alone R W E (k (nd_v nd)) (pm l) n m' -> alone R W E (loadV (GV z) k) (pm l) (S n) m'.
    Proof. intros z nd l k n m' Hq H; eapply al_load; [apply Hnone; reflexivity|unfold pm; cbn; rewrite (slot_rd _ _ _ _ Hq); reflexivity|exact H]. Qed.
    Lemma ld_gflip : forall z nd l k n m', rd nodes z = Ok nd -> alone R W E (k (nd_flip nd)) (pm l) n m' -> alone R W E (loadV (GFlip z) k) (pm l) (S n) m'.
    Proof. intros z nd l k n m' Hq H; eapply al_load; [apply Hnone; reflexivity|unfold pm; cbn; rewrite (slot_rd _ _ _ _ Hq); reflexivity|exact H]. Qed.

    Ltac st := intros l q y k n m' Hq H; pose proof (nth_lt _ _ _ _ Hq) as Hi; eapply al_store;
      [apply Hown; reflexivity|unfold pm, pack; cbn; rewrite slot_map, slot_nat, Hq; discriminate|
       erewrite pm_set; [exact H|eassumption|reflexivity|unfold pm, pack; cbn; rewrite slot_map, slot_set, Z.eqb_refl by auto; reflexivity|
         intros loc Ho Ne; destruct loc; cbn in Ho; try discriminate; injection Ho as ->; try congruence;
         unfold pm, pack; cbn; rewrite !slot_map, slot_set, Z.eqb_refl, slot_nat, Hq by auto; reflexivity]].
    Lemma st_x : forall l q y k n m', nth_error l i = Some q -> alone R W E k (pm (set_nth i (set_x q y) l)) n m' -> alone R W E (Store (PX (Z.of_nat i)) (VV y) k) (pm l) (S n) m'.
    Proof. st. Qed.
    Lemma st_v : forall l q y k n m', nth_error l i = Some q -> alone R W E k (pm (set_nth i (set_v q y) l)) n m' -> alone R W E (Store (PV (Z.of_nat i)) (VV y) k) (pm l) (S n) m'.
    Proof. st. Qed.
    Lemma st_pic : forall l q y k n m', nth_error l i = Some q -> alone R W E k (pm (set_nth i (set_pic q y) l)) n m' -> alone R W E (Store (PPic (Z.of_nat i)) (VV y) k) (pm l) (S n) m'.
    Proof. st. Qed.
    Lemma st_flip : forall l q y k n m', nth_error l i = Some q -> alone R W E k (pm (set_nth i (set_flip q y) l)) n m' -> alone R W E (Store (PFlip (Z.of_nat i)) (VV y) k) (pm l) (S n) m'.
    Proof. st. Qed.
    Lemma st_h : forall l q y k n m', nth_error l i = Some q -> alone R W E k (pm (set_nth i (set_h q y) l)) n m' -> alone R W E (Store (PHist (Z.of_nat i)) (VH y) k) (pm l) (S n) m'.
    Proof. st. Qed.
    Lemma st_F : forall l q y k n m', nth_error l i = Some q -> alone R W E k (pm (set_nth i (set_F q y) l)) n m' -> alone R W E (Store (PF (Z.of_nat i)) (VM y) k) (pm l) (S n) m'.
    Proof. st. Qed.
    Lemma st_B : forall l q y k n m', nth_error l i = Some q -> alone R W E k (pm (set_nth i (set_B q y) l)) n m' -> alone R W E (Store (PB (Z.of_nat i)) (VM y) k) (pm l) (S n) m'.
    Proof. st. Qed.
    Lemma st_tau : forall l q y k n m', nth_error l i = Some q -> alone R W E k (pm (set_nth i (set_tau q y) l)) n m' -> alone R W E (Store (PTau (Z.of_nat i)) (VM y) k) (pm l) (S n) m'.
    Proof. st. Qed.
  End Moves.

  Ltac nx := first [eassumption|eapply set_at; eassumption].
  Ltac go := repeat first
    [ eapply ld_x; [eassumption|nx|]; cbv beta | eapply ld_v; [eassumption|nx|]; cbv beta | eapply ld_pic; [eassumption|nx|]; cbv beta | eapply ld_flip; [eassumption|nx|]; cbv beta
    | eapply ld_h; [eassumption|nx|]; cbv beta | eapply ld_F; [eassumption|nx|]; cbv beta | eapply ld_tau; [eassumption|nx|]; cbv beta
    | eapply st_x; [eassumption|nx|]; rewrite ?set_set | eapply st_v; [eassumption|nx|]; rewrite ?set_set | eapply st_pic; [eassumption|nx|]; rewrite ?set_set
    | eapply st_flip; [eassumption|nx|]; rewrite ?set_set | eapply st_h; [eassumption|nx|]; rewrite ?set_set | eapply st_F; [eassumption|nx|]; rewrite ?set_set
    | eapply st_B; [eassumption|nx|]; rewrite ?set_set | eapply st_tau; [eassumption|nx|]; rewrite ?set_set ].

  Variable p : Par A.
  Notation it := (iteration (P1 A) pm powner).

  Lemma vel_iteration : forall i q, it (vel_iter p) i q (set_v q (new_velocity p q)).
  Proof.
    intros i q R W E l k n m' Ho Hn Hq H. unfold vel_iter, new_velocity in *. cbv zeta.
    destruct (flip_ratio p <? #(-1)); [|destruct (flip_ratio p <? #0)]; eexists; go; exact H.
  Qed.
  Lemma pos_iteration : forall dt i q r, pos_particle p dt q = Ok r -> it (pos_iter p dt) i q (fst r).
  Proof.
    intros dt i q r Hr R W E l k n m' Ho Hn Hq H. unfold pos_particle in Hr. apply Ok_inj in Hr. subst r. cbn [fst] in H.
    unfold pos_iter. cbv zeta.
    set (x1 := vadd (q_x q) (lscale dt (q_pic q))) in *.
    (* the last two stages *)
    assert (K2 : forall q2 k, q_x q2 = pbc_wrap p x1 -> (exists n, alone R W E k (pm (set_nth i (set_x q2 (pos_hack p (pbc_wrap p x1))) l)) n m') ->
      exists n, alone R W E ((if change_pos p then fun k => loadV (PX (Z.of_nat i)) (fun x =>
          if vget x 0 >? 8//10 then Store (PX (Z.of_nat i)) (VV (vset (vset x 0 ((-1)//10)) 1 (vget x 1 + 27//100))) k
          else k) else fun k => k) k) (pm (set_nth i q2 l)) n m').
    { intros q2 k2 E2 (n2 & H2). unfold pos_hack in H2. rewrite <- E2 in H2. destruct (change_pos p).
      - destruct (vget (q_x q2) 0 >? 8//10) eqn:C; eexists; (eapply ld_x; [eassumption|eapply set_at; eassumption|]; cbv beta; rewrite C).
        + eapply st_x; [eassumption|eapply set_at; eassumption|]. rewrite set_set. exact H2.
        + replace (set_x q2 (q_x q2)) with q2 in H2 by (now destruct q2). exact H2.
      - replace (set_x q2 (q_x q2)) with q2 in H2 by (now destruct q2). eauto. }
    assert (K1 : forall q1 k, q_x q1 = x1 -> (exists n, alone R W E k (pm (set_nth i (set_x q1 (pos_hack p (pbc_wrap p x1))) l)) n m') ->
      exists n, alone R W E ((if use_pbc p then fun k => loadV (PX (Z.of_nat i)) (fun x =>
          if vget x 0 >? Types.Lx p then Store (PX (Z.of_nat i)) (VV (vset x 0 (vget x 0 - Types.Lx p))) k
          else if vget x 0 <? #0 then Store (PX (Z.of_nat i)) (VV (vset x 0 (Types.Lx p + vget x 0))) k
          else k) else fun k => k)
        ((if change_pos p then fun k => loadV (PX (Z.of_nat i)) (fun x =>
          if vget x 0 >? 8//10 then Store (PX (Z.of_nat i)) (VV (vset (vset x 0 ((-1)//10)) 1 (vget x 1 + 27//100))) k
          else k) else fun k => k) k)) (pm (set_nth i q1 l)) n m').
    { intros q1 k1 E1 H1.
      assert (E0 : pbc_wrap p x1 = pbc_wrap p (q_x q1)) by now rewrite E1.
      unfold pbc_wrap in E0 at 2. destruct (use_pbc p).
      - destruct (vget (q_x q1) 0 >? Types.Lx p) eqn:C1; [|destruct (vget (q_x q1) 0 <? #0) eqn:C2].
        + destruct (K2 (set_x q1 (pbc_wrap p x1)) k1 eq_refl H1) as (n2 & A2). rewrite E0 in A2. eexists. eapply ld_x; [eassumption|eapply set_at; eassumption|]; cbv beta; rewrite C1.
          eapply st_x; [eassumption|eapply set_at; eassumption|]. rewrite set_set. exact A2.
        + destruct (K2 (set_x q1 (pbc_wrap p x1)) k1 eq_refl H1) as (n2 & A2). rewrite E0 in A2. eexists. eapply ld_x; [eassumption|eapply set_at; eassumption|]; cbv beta; rewrite C1, C2.
          eapply st_x; [eassumption|eapply set_at; eassumption|]. rewrite set_set. exact A2.
        + destruct (K2 q1 k1 (eq_sym E0) H1) as (n2 & A2). eexists. eapply ld_x; [eassumption|eapply set_at; eassumption|]; cbv beta; rewrite C1, C2. exact A2.
      - destruct (K2 q1 k1 (eq_sym E0) H1) as (n2 & A2). eauto. }
    destruct (use_musl p).
    - destruct (K1 (set_x q x1) k eq_refl) as (n1 & A1); [exists n; exact H|]. eexists. go. exact A1.
    - destruct (K1 (set_v (set_x q x1) (new_velocity p q)) k eq_refl) as (n1 & A1); [exists n; exact H|].
      unfold vel_iter, new_velocity in *. cbv zeta. destruct (flip_ratio p <? #(-1)); [|destruct (flip_ratio p <? #0)]; eexists; go; exact A1.
  Qed.

  Variable plast : Par A -> A -> TM -> TM -> Hist A -> res (PlOut A).
  Variable axes : list (Axis A).

  (** The program up to the increments of the counter. *)
  Definition tail_of (private : bool) (fl : Flags) (k : Prog) : Prog :=
    bump (if private then O else snd fl) (if fst fl then Store Exit (VB true) k else k).

  Lemma strain_run : forall private dt vg i q r R W E l k n m',
    (forall loc, powner loc = Some (Z.of_nat i) -> R loc /\ W loc) -> (forall loc, powner loc = None -> R loc) -> nth_error l i = Some q ->
    strain_particle plast p dt vg q = Ok r -> alone R W E (tail_of private (snd r) k) (pm (set_nth i (fst r) l)) n m' ->
    exists n', alone R W E (strain_iter p plast private dt (Z.of_nat i) vg k) (pm l) n' m'.
  Proof.
    intros private dt vg i q r R W E l k n m' Ho Hn Hq Hr H. unfold strain_particle in Hr. apply bind_Ok in Hr. destruct Hr as (o & Eo & Hr). apply Ok_inj in Hr. subst r.
    unfold strain_iter, plastic_iter. cbv zeta. cbn [fst snd] in H. unfold tail_of in H. cbn [fst snd] in H.
    eexists. go. cbn [q_tau q_h set_F]. rewrite Eo. cbn [ret]. go. exact H.
  Qed.

  Lemma gather_run : forall (R W : Loc -> Prop) E l xp items pic vg B fl k n m' pic' vg' B' fl', (forall loc, powner loc = None -> R loc) ->
    foldM (fun acc it => nd <- rd nodes (it_idx it) ;; Ok (vadd acc (vscale (nd_v nd) (it_w it)))) items pic = Ok pic' ->
    foldM (fun acc it => nd <- rd nodes (it_idx it) ;; Ok (madd acc (mouter (nd_v nd) (it_g it)))) items vg = Ok vg' ->
    (if flip_ratio p <? #0 then foldM (fun acc it => nd <- rd nodes (it_idx it) ;; Ok (madd acc (mscale (mouter (nd_v nd) (vsub (it_x it) xp)) (it_w it)))) items B else Ok B) = Ok B' ->
    (if flip_ratio p >=? #(-1) then foldM (fun acc it => nd <- rd nodes (it_idx it) ;; Ok (vadd acc (vscale (nd_flip nd) (it_w it)))) items fl else Ok fl) = Ok fl' ->
    alone R W E (k pic' vg' B' fl') (pm l) n m' -> exists n', alone R W E (gather_prog p xp items pic vg B fl k) (pm l) n' m'.
  Proof.
    intros R W E l xp items. induction items as [|it items IH]; intros pic vg B fl k n m' pic' vg' B' fl' Hn H1 H2 H3 H4 H.
    - cbn in *. apply Ok_inj in H1, H2. destruct (flip_ratio p <? #0), (flip_ratio p >=? #(-1)); cbn in H3, H4; apply Ok_inj in H3, H4; subst; eauto.
    - cbn [foldM] in H1, H2, H3, H4. apply bind_Ok in H1. destruct H1 as (a1 & E1 & H1). apply bind_Ok in E1. destruct E1 as (nd & End & E1). apply Ok_inj in E1. subst a1.
      rewrite End in H2, H3, H4. cbn [bind] in H2, H3, H4. cbn [gather_prog]. cbv zeta.
      destruct (flip_ratio p <? #0); destruct (flip_ratio p >=? #(-1)).
      all: match goal with |- exists n', alone _ _ _ _ _ _ _ => idtac end.
      + destruct (IH _ _ _ _ k n m' _ _ _ _ Hn H1 H2 H3 H4 H) as (n' & K). eexists.
        eapply ld_gv; [eassumption|eassumption|]; cbv beta. eapply ld_gv; [eassumption|eassumption|]; cbv beta. eapply ld_gv; [eassumption|eassumption|]; cbv beta. eapply ld_gflip; [eassumption|eassumption|]; cbv beta. exact K.
      + destruct (IH _ _ _ _ k n m' _ _ _ _ Hn H1 H2 H3 H4 H) as (n' & K). eexists.
        eapply ld_gv; [eassumption|eassumption|]; cbv beta. eapply ld_gv; [eassumption|eassumption|]; cbv beta. eapply ld_gv; [eassumption|eassumption|]; cbv beta. exact K.
      + destruct (IH _ _ _ _ k n m' _ _ _ _ Hn H1 H2 H3 H4 H) as (n' & K). eexists.
        eapply ld_gv; [eassumption|eassumption|]; cbv beta. eapply ld_gv; [eassumption|eassumption|]; cbv beta. eapply ld_gflip; [eassumption|eassumption|]; cbv beta. exact K.
      + destruct (IH _ _ _ _ k n m' _ _ _ _ Hn H1 H2 H3 H4 H) as (n' & K). eexists.
        eapply ld_gv; [eassumption|eassumption|]; cbv beta. eapply ld_gv; [eassumption|eassumption|]; cbv beta. exact K.
  Qed.
  Lemma vgrad_run : forall (R W : Loc -> Prop) E l items vg k n m' vg', (forall loc, powner loc = None -> R loc) ->
    foldM (fun acc it => nd <- rd nodes (it_idx it) ;; Ok (madd acc (mouter (nd_v nd) (it_g it)))) items vg = Ok vg' ->
    alone R W E (k vg') (pm l) n m' -> exists n', alone R W E (vgrad_prog items vg k) (pm l) n' m'.
  Proof.
    intros R W E l items. induction items as [|it items IH]; intros vg k n m' vg' Hn H2 H.
    - cbn in *. apply Ok_inj in H2. subst. eauto.
    - cbn [foldM] in H2. apply bind_Ok in H2. destruct H2 as (a1 & E1 & H2). apply bind_Ok in E1. destruct E1 as (nd & End & E1). apply Ok_inj in E1. subst a1.
      destruct (IH _ k n m' _ Hn H2 H) as (n' & K). eexists. cbn [vgrad_prog]. eapply ld_gv; [eassumption|eassumption|]; cbv beta. exact K.
  Qed.

  (** [g2p_fill] at one particle. *)
  Definition filled (q : P1 A) : P1 A := mkP1 (q_x q) (q_v q) vzero vzero (q_h q) (q_F q) mzero (q_tau q).
  Definition refilled (q : P1 A) : P1 A := mkP1 (q_x q) (q_v q) (q_pic q) (q_flip q) (reset_dg (q_h q)) (q_F q) (q_B q) (q_tau q).

  Lemma g2p_run : forall dt i q r R W E l k n m',
    (forall loc, powner loc = Some (Z.of_nat i) -> R loc /\ W loc) -> (forall loc, powner loc = None -> R loc) -> nth_error l i = Some (filled q) ->
    g2p_particle plast p axes nodes dt q = Ok r ->
    alone R W E (tail_of false (snd r) k) (pm (set_nth i (fst r) l)) n m' ->
    exists n', alone R W E (g2p_iter p plast axes dt i k) (pm l) n' m'.
  Proof.
    intros dt i q r R W E l k n m' Ho Hn Hq Hr H. unfold g2p_particle in Hr. cbv zeta in Hr.
    apply bind_Ok in Hr. destruct Hr as (items & Ei & Hr). apply bind_Ok in Hr. destruct Hr as (pic & Epic & Hr).
    apply bind_Ok in Hr. destruct Hr as (vg & Evg & Hr). apply bind_Ok in Hr. destruct Hr as (B & EB & Hr). apply bind_Ok in Hr. destruct Hr as (fl & Efl & Hr).
    unfold g2p_iter. cbv zeta.
    set (q' := mkP1 (q_x q) (q_v q) pic fl (q_h q) (q_F q) B (q_tau q)) in *.
    assert (K : exists n', alone R W E (if use_musl p then k else strain_iter p plast false dt (Z.of_nat i) vg k) (pm (set_nth i q' l)) n' m').
    { destruct (use_musl p).
      - apply Ok_inj in Hr. subst r. cbn in H. eauto.
      - eapply (strain_run false dt vg i q' r R W E (set_nth i q' l)); [auto|auto|eapply set_at; eassumption|exact Hr|rewrite set_set; exact H]. }
    destruct K as (n1 & K).
    assert (K2 : exists n', alone R W E (Store (PPic (Z.of_nat i)) (VV pic)
        ((if flip_ratio p <? #0 then Store (PB (Z.of_nat i)) (VM B) else fun k => k)
        ((if flip_ratio p >=? #(-1) then Store (PFlip (Z.of_nat i)) (VV fl) else fun k => k)
        (if use_musl p then k else strain_iter p plast false dt (Z.of_nat i) vg k)))) (pm l) n' m').
    { destruct (flip_ratio p <? #0), (flip_ratio p >=? #(-1)); try (apply Ok_inj in EB; subst B); try (apply Ok_inj in Efl; subst fl); eexists; go; exact K. }
    destruct K2 as (n2 & K2).
    destruct (gather_run R W E l (q_x q) items vzero mzero mzero vzero
      (fun pic vgrad B fl => Store (PPic (Z.of_nat i)) (VV pic)
        ((if flip_ratio p <? #0 then Store (PB (Z.of_nat i)) (VM B) else fun k => k)
        ((if flip_ratio p >=? #(-1) then Store (PFlip (Z.of_nat i)) (VV fl) else fun k => k)
        (if use_musl p then k else strain_iter p plast false dt (Z.of_nat i) vgrad k)))) n2 m' pic vg B fl Hn Epic Evg EB Efl K2) as (n3 & K3).
    eexists. eapply ld_x; [eassumption|nx|]; cbv beta. cbn [q_x filled]. rewrite Ei. cbn [ret]. exact K3.
  Qed.
  Lemma def_run : forall dt i q r R W E l k n m',
    (forall loc, powner loc = Some (Z.of_nat i) -> R loc /\ W loc) -> (forall loc, powner loc = None -> R loc) -> nth_error l i = Some (refilled q) ->
    def_particle plast p axes nodes dt q = Ok r ->
    alone R W E (tail_of true (snd r) k) (pm (set_nth i (fst r) l)) n m' ->
    exists n', alone R W E (def_iter p plast axes dt i k) (pm l) n' m'.
  Proof.
    intros dt i q r R W E l k n m' Ho Hn Hq Hr H. unfold def_particle in Hr.
    apply bind_Ok in Hr. destruct Hr as (items & Ei & Hr). apply bind_Ok in Hr. destruct Hr as (vg & Evg & Hr).
    unfold def_iter. cbv zeta.
    destruct (strain_run true dt vg i (refilled q) r R W E l k n m' Ho Hn Hq Hr H) as (n1 & K1).
    destruct (vgrad_run R W E l items mzero (fun vgrad => strain_iter p plast true dt (Z.of_nat i) vgrad k) n1 m' vg Hn Evg K1) as (n2 & K2).
    eexists. eapply ld_x; [eassumption|nx|]; cbv beta. cbn [q_x refilled]. rewrite Ei. cbn [ret]. exact K2.
  Qed.
End Parts.
