(** * Property C83: the parallel loops, access by access.
    Every loop is run by any number of threads, with any distribution of the iterations, in every
    interleaving of the single memory accesses; the machine is in Threads.v, [parallel] in SpecThreads.v.
    "Any arithmetic" includes the reals and binary64. *)
From Coq Require Import Reals ZArith Lra Lia List Bool Permutation FunctionalExtensionality.
From Verif Require Import RemeshExamples SvdExist StencilProofs GradProofs SpecPlastic SpecStep PropTransfer PropPlastic Num NumR Tools Lin Types Remesh Objects Transfer Plastic Step Spec LinProofs ResProofs GridProofs IndexProofs StepProofs PloopProofs
  Threads SpecThreads ThreadProofs ThreadLoops ThreadParts ThreadNodes SpecPlastic ExPlastic Examples StencilProofs GradProofs PropGrid PropTransfer PropPlastic PropMpm ExMech ExStep OutputProofs.
Import ListNotations.
Local Open Scope R_scope.

(** ** Helpers *)
Section Help.
  Context {A : Type} {NA : Num A} {G : Geo A}.

  Lemma sum_zero : forall l x, list_sum l = 0%nat -> In x l -> x = 0%nat.
  Proof. unfold list_sum. induction l as [|a l IH]; intros x H K; [contradiction|]. cbn in H. destruct K as [->|K]; [lia|]. apply IH; auto. lia. Qed.
  Lemma loop_cells : forall (body : P1 A -> res (P1 A * Flags)) order l P' fl, Permutation order (seq 0 (length l)) -> ploop body order (pack l) = Ok (P', fl) ->
    exists l', P' = pack l' /\ length l' = length l /\ (forall i q, nth_error l i = Some q -> exists r, body q = Ok r /\ nth_error l' i = Some (fst r) /\
      (fst fl = false -> fst (snd r) = false) /\ (snd fl = 0%nat -> snd (snd r) = 0%nat)).
  Proof.
    intros body order l P' fl Hp H. apply (ploop_Ok body order l) in H; auto. destruct H as (rs & M & E). unfold results in E. injection E as -> ->.
    apply mapM_Ok in M. exists (map fst rs). split; auto. split; [rewrite map_length; symmetry; eapply F2_length; eauto|].
    intros i q Hq. destruct (Forall2_nth_error _ _ _ _ _ M i q Hq) as (r & Er & Br). exists r. split; auto. split; [rewrite nth_error_map, Er; reflexivity|].
    apply nth_error_In in Er. cbn [fst snd]. split.
    - intros K. destruct (fst (snd r)) eqn:F; auto. rewrite <- K. symmetry. apply existsb_exists. eauto.
    - intros K. eapply sum_zero; [exact K|]. apply in_map_iff. eauto.
  Qed.
  Lemma fill_g2p : forall l : list (P1 A), g2p_fill (pack l) = pack (map filled l).
  Proof. intros l. unfold g2p_fill, pack. cbn. rewrite !map_map. reflexivity. Qed.
  Lemma fill_def : forall l : list (P1 A), def_fill (pack l) = pack (map refilled l).
  Proof. intros l. unfold def_fill, pack. cbn. rewrite !map_map. reflexivity. Qed.
  Lemma p2g_part_len : forall p axes P (l l' : list (Node A)) i, p2g_particle p axes P l i = Ok l' -> length l' = length l.
  Proof.
    intros p axes P l l' i H. unfold p2g_particle in H. cbv zeta in H.
    do 6 (apply bind_Ok in H; destruct H as (? & _ & H)). revert l H. induction x4 as [|it items IH]; intros l H; cbn in H; [apply Ok_inj in H; now subst|].
    apply bind_Ok in H. destruct H as (l1 & E & H). rewrite (IH _ H). unfold p2g_item in E. destruct (it_w it >? w_min)%num; [|apply Ok_inj in E; now subst].
    apply upd_inv in E. apply E.
  Qed.
  Lemma musl_part_len : forall p axes P (l l' : list (Node A)) i, musl_particle p axes P l i = Ok l' -> length l' = length l.
  Proof.
    intros p axes P l l' i H. unfold musl_particle in H. cbv zeta in H.
    do 4 (apply bind_Ok in H; destruct H as (? & _ & H)). revert l H. induction x2 as [|it items IH]; intros l H; cbn in H; [apply Ok_inj in H; now subst|].
    apply bind_Ok in H. destruct H as (l1 & E & H). rewrite (IH _ H). unfold musl_item in E. destruct (it_w it >? w_min)%num; [|apply Ok_inj in E; now subst].
    apply upd_inv in E. apply E.
  Qed.
End Help.

(** ** Loops over particles *)
(** G2P, in MUSL mode or as long as no particle yields. *)
Theorem C83_g2p_partial : forall (A : Type) (NA : Num A) (G : Geo A) p pl axes nodes dt P n order sched cnt ex P' fl,
  consistent P n -> Permutation order (seq 0 n) -> thread_schedule sched n ->
  g2p pl p axes nodes dt order P = Ok (P', fl) -> use_musl p = true \/ fl = (false, 0%nat) ->
  parallel (map (thread_of (g2p_iter p pl axes dt)) sched) (mem_of (g2p_fill P) nodes cnt ex) (fun m => forall l, m l = mem_of P' nodes cnt ex l).
Proof.
  intros A NA G p pl axes nodes dt P n order sched cnt ex P' fl C Ho Hs H Q. destruct (consistent_pack _ _ C) as (l & <- & ->).
  destruct (loop_cells _ _ _ _ _ Ho H) as (l' & -> & L & K). rewrite fill_g2p.
  apply (cells_parallel (P1 A) (pm nodes cnt ex) powner) with
    (body := fun _ x => r <- g2p_particle pl p axes nodes dt x ;; Ok (fst r)) (pre := fun x => filled x = x /\ forall r, g2p_particle pl p axes nodes dt x = Ok r -> snd r = (false, 0%nat)) (T := length l).
  - apply pm_at.
  - apply pm_no.
  - intros i x x' Hi (Hf & Hq) Hb R W E l1 k m m' Hw Hn Hx Al. apply bind_Ok in Hb. destruct Hb as (r & Er & Hb). apply Ok_inj in Hb. subst x'.
    eapply (g2p_run nodes cnt ex p pl axes dt i x r R W E l1 k); eauto; [now rewrite Hf|]. rewrite (Hq r Er). exact Al.
  - unfold thread_schedule in Hs. now rewrite map_length.
  - now rewrite map_length.
  - now rewrite map_length.
  - intros i x Hx. rewrite nth_error_map in Hx. destruct (nth_error l i) as [q|] eqn:Eq; [|discriminate]. cbn in Hx. injection Hx as <-.
    destruct (K i q Eq) as (r & Br & Er & F1 & F2). change (g2p_particle pl p axes nodes dt (filled q)) with (g2p_particle pl p axes nodes dt q). split; [split; [reflexivity|]|].
    + intros r' Hr'. assert (r' = r) by congruence. subst r'. destruct Q as [Um| ->].
      * unfold g2p_particle in Br. cbv zeta in Br. do 5 (apply bind_Ok in Br; destruct Br as (? & _ & Br)). rewrite Um in Br. apply Ok_inj in Br. now subst r.
      * destruct r as (q' & (e & c)). cbn in *. rewrite F1, F2 by auto. reflexivity.
    + exists (fst r). rewrite Br. split; auto.
Qed.

(** deformationUpdate, whether or not particles yield: its counter has a reduction clause. *)
Theorem C83_deformation : forall (A : Type) (NA : Num A) (G : Geo A) p pl axes nodes dt P n order sched cnt ex P' fl,
  consistent P n -> Permutation order (seq 0 n) -> thread_schedule sched n ->
  deformationUpdate pl p axes nodes dt order P = Ok (P', fl) -> fst fl = false ->
  parallel (map (thread_of (def_iter p pl axes dt)) sched) (mem_of (def_fill P) nodes cnt ex) (fun m => forall l, m l = mem_of P' nodes cnt ex l).
Proof.
  intros A NA G p pl axes nodes dt P n order sched cnt ex P' fl C Ho Hs H Q. destruct (consistent_pack _ _ C) as (l & <- & ->).
  destruct (loop_cells _ _ _ _ _ Ho H) as (l' & -> & L & K). rewrite fill_def.
  apply (cells_parallel (P1 A) (pm nodes cnt ex) powner) with
    (body := fun _ x => r <- def_particle pl p axes nodes dt x ;; Ok (fst r)) (pre := fun x => refilled x = x /\ forall r, def_particle pl p axes nodes dt x = Ok r -> fst (snd r) = false) (T := length l).
  - apply pm_at.
  - apply pm_no.
  - intros i x x' Hi (Hf & Hq) Hb R W E l1 k m m' Hw Hn Hx Al. apply bind_Ok in Hb. destruct Hb as (r & Er & Hb). apply Ok_inj in Hb. subst x'.
    eapply (def_run nodes cnt ex p pl axes dt i x r R W E l1 k); eauto; [now rewrite Hf|]. unfold tail_of. rewrite (Hq r Er). exact Al.
  - unfold thread_schedule in Hs. now rewrite map_length.
  - now rewrite map_length.
  - now rewrite map_length.
  - intros i x Hx. rewrite nth_error_map in Hx. destruct (nth_error l i) as [q|] eqn:Eq; [|discriminate]. cbn in Hx. injection Hx as <-.
    destruct (K i q Eq) as (r & Br & Er & F1 & F2). change (def_particle pl p axes nodes dt (refilled q)) with (def_particle pl p axes nodes dt q). split; [split; [reflexivity|]|].
    + intros r' Hr'. assert (r' = r) by congruence. subst r'. auto.
    + exists (fst r). rewrite Br. split; auto.
Qed.

(** The velocity update of MUSL, and positionUpdate. *)
Theorem C83_velocity : forall (A : Type) (NA : Num A) (G : Geo A) p nodes P n order sched cnt ex P' fl,
  consistent P n -> Permutation order (seq 0 n) -> thread_schedule sched n -> musl_velocities p order P = Ok (P', fl) ->
  parallel (map (thread_of (vel_iter p)) sched) (mem_of P nodes cnt ex) (fun m => forall l, m l = mem_of P' nodes cnt ex l).
Proof.
  intros A NA G p nodes P n order sched cnt ex P' fl C Ho Hs H. destruct (consistent_pack _ _ C) as (l & <- & ->).
  destruct (loop_cells _ _ _ _ _ Ho H) as (l' & -> & L & K).
  apply (cells_parallel (P1 A) (pm nodes cnt ex) powner) with (body := fun _ x => Ok (set_v x (new_velocity p x))) (pre := fun _ => True) (T := length l); auto.
  - apply pm_at.
  - apply pm_no.
  - intros i x x' _ _ Hb. apply Ok_inj in Hb. subst x'. apply vel_iteration.
  - intros i x Hx. split; auto. destruct (K i x Hx) as (r & Br & Er & _). apply Ok_inj in Br. subst r. cbn in Er. eauto.
Qed.
Theorem C83_position : forall (A : Type) (NA : Num A) (G : Geo A) p dt nodes P n order sched cnt ex P' fl,
  consistent P n -> Permutation order (seq 0 n) -> thread_schedule sched n -> positionUpdate p dt order P = Ok (P', fl) ->
  parallel (map (thread_of (pos_iter p dt)) sched) (mem_of P nodes cnt ex) (fun m => forall l, m l = mem_of P' nodes cnt ex l).
Proof.
  intros A NA G p dt nodes P n order sched cnt ex P' fl C Ho Hs H. destruct (consistent_pack _ _ C) as (l & <- & ->).
  destruct (loop_cells _ _ _ _ _ Ho H) as (l' & -> & L & K).
  apply (cells_parallel (P1 A) (pm nodes cnt ex) powner) with (body := fun _ x => r <- pos_particle p dt x ;; Ok (fst r)) (pre := fun _ => True) (T := length l); auto.
  - apply pm_at.
  - apply pm_no.
  - intros i x x' _ _ Hb. apply bind_Ok in Hb. destruct Hb as (r & Er & Hb). apply Ok_inj in Hb. subst x'. now apply pos_iteration.
  - intros i x Hx. split; auto. destruct (K i x Hx) as (r & Br & Er & _). exists (fst r). rewrite Br. auto.
Qed.

(** ** Loops over nodes *)
(** The averaging loop of P2G; the serial scaling of the masses completes [p2g_finish_node]. *)
Theorem C83_average : forall (A : Type) (NA : Num A) (G : Geo A) p P nodes sched cnt ex, thread_schedule sched (length nodes) ->
  parallel (map (thread_of (average_iter p)) sched) (mem_of P nodes cnt ex) (fun m => forall l, m l = mem_of P (map (average_node p) nodes) cnt ex l) /\
  map (scale_mass p) (map (average_node p) nodes) = map (p2g_finish_node p) nodes.
Proof.
  intros A NA G p P nodes sched cnt ex Hs. split; [|rewrite map_map; reflexivity].
  apply (cells_parallel (Node A) (gm P cnt ex) gowner) with (body := fun _ x => Ok (average_node p x)) (pre := fun _ => True) (T := length nodes); auto.
  - apply gm_at.
  - intros; apply gm_no; auto.
  - intros i x x' _ _ Hb. apply Ok_inj in Hb. subst x'. apply average_iteration.
  - now rewrite map_length.
  - intros i x Hx. split; auto. exists (average_node p x). split; auto. now rewrite nth_error_map, Hx.
Qed.
(** explicitEulerUpdate: [nl] lists index and position of the nodes in the order of the loop nest. *)
Theorem C83_euler : forall (G : Geo R) (HG : two_or_three G) p plates dt grav axes P nodes order sched cnt ex nodes' nl,
  GridOk p axes -> Z.of_nat (length nodes) = grid_nodes axes -> Permutation order (seq 0 (length nodes)) -> thread_schedule sched (length nodes) ->
  node_list axes = Ok nl -> euler p plates dt grav axes order nodes = Ok nodes' ->
  parallel (map (thread_of (euler_iter p plates dt grav nl)) sched) (mem_of P nodes cnt ex) (fun m => forall l, m l = mem_of P nodes' cnt ex l).
Proof.
  intros G HG p plates dt grav axes P nodes order sched cnt ex nodes' nl GO Ln Ho Hs Hnl H. pose proof (geolaws G HG) as GL.
  assert (Hn : Z.of_nat (length nodes) = prodlen axes) by (rewrite Ln; apply (grid_nodes_val p); auto).
  rewrite (node_list_spec p axes GO) in Hnl. apply Ok_inj in Hnl.
  assert (En : Z.to_nat (grid_nodes axes) = length nodes) by lia.
  destruct (euler_spec p plates dt grav axes order nodes nodes' GO) as (L & K); auto; [now rewrite En|].
  apply (cells_parallel (Node R) (gm P cnt ex) gowner) with (body := fun i nd => euler_node p plates dt grav (node_pos p axes i) nd) (pre := fun _ => True) (T := length nodes); auto.
  - apply gm_at.
  - intros; apply gm_no; auto.
  - intros i x x' Hi _ Hb. eapply euler_iteration; [|exact Hb]. rewrite <- Hnl, rd_nat. replace (Z.to_nat (prodlen axes)) with (length nodes) by lia.
    rewrite nth_error_seq_map. destruct (Nat.ltb_spec i (length nodes)); [reflexivity|lia].
Qed.

(** ** Projections: the nodes are those of the threads merging one after the other, in some order. *)
Theorem C83_p2g : forall (A : Type) (NA : Num A) (G : Geo A) p axes P sched nodes cnt ex g, p2g_accumulate p axes P sched nodes = Ok g ->
  parallel (map (p2g_prog p axes (length nodes)) sched) (mem_of P nodes cnt ex)
    (fun m => exists order g', Permutation order sched /\ p2g_accumulate p axes P order nodes = Ok g' /\ forall l, m l = mem_of P g' cnt ex l).
Proof.
  intros A NA G p axes P sched nodes cnt ex g H.
  refine (projection_parallel P cnt ex (p2g_particle p axes P) (merge p) (merge_prog p) (spread_thread p axes) _ _ _ _ nodes sched g H).
  - intros l i l'. apply p2g_part_len.
  - intros a b E. unfold merge. rewrite map_length, combine_length. lia.
  - intros E loc rest k n m' L Al. apply (merge_run P cnt ex p E loc rest [] k n m' L Al).
  - intros W E nd th loc loc' k n m' Hf Al. eapply spread_thread_run; eauto.
Qed.
Theorem C83_musl : forall (A : Type) (NA : Num A) (G : Geo A) p axes P sched nodes cnt ex g, musl_grid p axes P sched nodes = Ok g ->
  let cleared := map (fun nd => set_nv nd vzero) nodes in
  parallel (map (musl_prog p axes (length nodes)) sched) (mem_of P cleared cnt ex)
    (fun m => exists order g', Permutation order sched /\ musl_grid p axes P order nodes = Ok (map (musl_finish_node p) g') /\ forall l, m l = mem_of P g' cnt ex l).
Proof.
  intros A NA G p axes P sched nodes cnt ex g H cleared. unfold musl_grid in *. apply bind_Ok in H. destruct H as (g0 & H & _).
  assert (Lc : length cleared = length nodes) by apply map_length.
  destruct (projection_parallel P cnt ex (musl_particle p axes P) musl_merge mmerge_prog (mspread_thread p axes)) with (nodes := cleared) (sched := sched) (g := g0) as (Q1 & Q2).
  - intros l i l'. apply musl_part_len.
  - intros a b E. unfold musl_merge. rewrite map_length, combine_length. lia.
  - intros E loc rest k n m' L Al. apply (mmerge_run P cnt ex E loc rest [] k n m' L Al).
  - intros W E nd th loc loc' k n m' Hf Al. eapply mspread_thread_run; eauto.
  - unfold accum. rewrite Lc. exact H.
  - rewrite Lc in Q1, Q2. split; [exact Q1|].
    assert (Mono : forall (P Q : Mem A -> Prop) s, (forall m, P m -> Q m) -> inevitably P s -> inevitably Q s).
    { clear. intros P Q s PQ I. induction I; [apply inev_now; auto|apply inev_later; auto]. }
    eapply Mono; [|exact Q2]. intros m (order & g' & Hp & Ha & Hm). exists order, g'. split; auto. split; auto. unfold accum in Ha. rewrite Lc in Ha. fold cleared. rewrite Ha. reflexivity.
Qed.

(** ** What goes wrong *)
Section Races.
  Context {A : Type} {NA : Num A} {G : Geo A}.
  Definition any : Loc -> Prop := fun _ => True.
  Lemma reaches_trans : forall a b c : option (Conf A), reaches a b -> reaches b c -> reaches a c.
  Proof. intros a b c H. induction H; auto. intros K. econstructor; eauto. Qed.
  Lemma alone_reaches : forall R W E p m n m', alone R W E p m n m' -> forall ts t lk, nth_error ts t = Some p ->
    reaches (Some (mkConf m ts lk)) (Some (mkConf m' (set_nth t E ts) lk)).
  Proof.
    intros R W E p m n m' H. induction H; intros ts t lk Ht.
    - rewrite set_id by auto. constructor.
    - econstructor; [eapply st_load; eauto|]. rewrite <- (set_set _ ts t (k v) E). apply IHalone. eapply set_at; eauto.
    - econstructor; [eapply st_store; eauto|]. rewrite <- (set_set _ ts t k E). apply IHalone. eapply set_at; eauto.
  Qed.
End Races.

(** Two particles that yield, one on each of two threads, in a step without MUSL: there is a data race
    on the counter, and the count of projected particles can come out as one. *)
Theorem C83_counter_race : forall (A : Type) (NA : Num A) (G : Geo A) p pl axes nodes dt q0 q1 q0' q1' cnt ex,
  use_musl p = false -> g2p_particle pl p axes nodes dt q0 = Ok (q0', (false, 1%nat)) -> g2p_particle pl p axes nodes dt q1 = Ok (q1', (false, 1%nat)) ->
  let start := Some (mkConf (mem_of (g2p_fill (pack [q0; q1])) nodes cnt ex) (map (thread_of (g2p_iter p pl axes dt)) [[0]; [1]]%nat) None) in
  g2p pl p axes nodes dt [0; 1]%nat (pack [q0; q1]) = Ok (pack [q0'; q1'], (false, 2%nat)) /\
  (exists s, reaches start s /\ race s) /\
  reaches start (Some (mkConf (mem_of (pack [q0'; q1']) nodes (cnt + 1) ex) [Done; Done] None)).
Proof.
  intros A NA G p pl axes nodes dt q0 q1 q0' q1' cnt ex Um E0 E1 start.
  assert (K : g2p pl p axes nodes dt [0; 1]%nat (pack [q0; q1]) = Ok (pack [q0'; q1'], (false, 2%nat))).
  { unfold g2p. apply (ploop_Ok _ [0; 1]%nat [q0; q1]); [reflexivity|]. exists [(q0', (false, 1%nat)); (q1', (false, 1%nat))]. split; [cbn [mapM bind]; rewrite E0; cbn [bind]; rewrite E1; reflexivity|reflexivity]. }
  split; auto. clear K.
  set (E := @loadN A G Count (fun c => Store Count (VN (S c)) Done)).
  assert (R0 : exists n, alone any any E (g2p_iter p pl axes dt 0 Done) (pm nodes cnt ex [filled q0; filled q1]) n (pm nodes cnt ex [q0'; filled q1])).
  { apply (g2p_run nodes cnt ex p pl axes dt 0 q0 (q0', (false, 1%nat)) any any E [filled q0; filled q1] Done 0); [intros; split; exact I|intros; exact I|reflexivity|exact E0|]. apply al_end. }
  assert (R1 : exists n, alone any any E (g2p_iter p pl axes dt 1 Done) (pm nodes cnt ex [q0'; filled q1]) n (pm nodes cnt ex [q0'; q1'])).
  { apply (g2p_run nodes cnt ex p pl axes dt 1 q1 (q1', (false, 1%nat)) any any E [q0'; filled q1] Done 0); [intros; split; exact I|intros; exact I|reflexivity|exact E1|]. apply al_end. }
  destruct R0 as (n0 & R0). destruct R1 as (n1 & R1).
  assert (S1 : reaches start (Some (mkConf (pm nodes cnt ex [q0'; q1']) [E; E] None))).
  { unfold start. rewrite fill_g2p. cbn [map thread_of fold_right]. eapply reaches_trans.
    - eapply (alone_reaches any any E _ _ _ _ R0 _ 0%nat). reflexivity.
    - cbn [set_nth]. eapply (alone_reaches any any E _ _ _ _ R1 [E; g2p_iter p pl axes dt 1 Done] 1%nat). reflexivity. }
  set (E' := @Store A G Count (VN (S cnt)) Done).
  assert (S2 : reaches start (Some (mkConf (pm nodes cnt ex [q0'; q1']) [E'; E'] None))).
  { eapply reaches_trans; [exact S1|]. econstructor; [eapply (st_load _ _ _ 0%nat); reflexivity|]. econstructor; [eapply (st_load _ _ _ 1%nat); reflexivity|]. cbn. constructor. }
  split.
  - exists (Some (mkConf (pm nodes cnt ex [q0'; q1']) [E'; E'] None)). split; auto. eexists _, 0%nat, 1%nat, E', E', Count. repeat split; auto. left. reflexivity.
  - eapply reaches_trans; [exact S2|]. econstructor; [eapply (st_store _ _ _ 0%nat); [reflexivity|discriminate]|]. econstructor; [eapply (st_store _ _ _ 1%nat); [reflexivity|rewrite mset_same; discriminate]|].
    cbn [set_nth]. match goal with |- reaches (Some (mkConf ?m _ _)) (Some (mkConf ?m' _ _)) => replace m with m'; [constructor|] end.
    apply functional_extensionality. intros l. unfold mset, pm. rewrite Nat.add_1_r. destruct (Loc_eq_dec Count l) as [<-|Ne]; [reflexivity|]. destruct l; cbn; auto. congruence.
Qed.

(** PBCAddParticles: a particle with a periodic copy on one thread, any particle on another: one thread
    reads the vector of positions outside the critical section while the other changes it inside. *)
Theorem C83_pbc_race : forall (A : Type) (NA : Num A) (G : Geo A) p safety nodes P x cnt ex, rd (p_x P) 0 = Ok x ->
  ((Lx p - vget x 0 <? #safety * dx p) && (Lx p - vget x 0 >? #0))%num = true ->
  exists s, reaches (Some (mkConf (mem_of P nodes cnt ex) (map (thread_of (pbc_iter p safety)) [[0]; [1]]%nat) None)) s /\ race s.
Proof.
  intros A NA G p safety nodes P x cnt ex Hx Hc. eexists. split.
  - cbn [map thread_of fold_right]. unfold pbc_iter at 1.
    econstructor; [eapply (st_load _ _ _ 0%nat); reflexivity|]. cbn [set_nth].
    econstructor; [eapply (st_load _ _ _ 0%nat); [reflexivity|cbn; unfold slot; rewrite Hx; reflexivity]|]. cbn [set_nth]. cbv zeta. rewrite Hc. unfold pbc_push.
    econstructor; [eapply (st_acquire _ _ 0%nat); reflexivity|]. cbn [set_nth].
    econstructor; [eapply (st_load _ _ _ 0%nat); reflexivity|]. cbn [set_nth]. constructor.
  - eexists _, 0%nat, 1%nat, _, _, XVec. cbn. repeat split; auto; try reflexivity. right. reflexivity.
Qed.

(** ** Concrete cases *)
Definition case_p (pm : PlasticModel) : @Par R (Geo2 R) := pl_par pm NoHard 1 0 0 1 false false.
Definition case_q (x : @TV R (Geo2 R)) (F : @TM R (Geo2 R)) : P1 R := mkP1 x vzero vzero vzero h0 F mzero mzero.
Definition case_axes : list (Axis R) := [ax5; ax5].
Definition case_nodes : list (@Node R (Geo2 R)) := repeat zero_node 25.
Lemma case_grid : forall pm, GridOk (case_p pm) case_axes.
Proof. intros. destruct ex_grid_ok as [g1 g2 g3]. split; [exact g1|exact g2|exact g3]. Qed.
Lemma case_in : forall pm a b, -1 <= a < 1 -> -1 <= b < 1 -> in_grid (case_p pm) case_axes (pt a b).
Proof. intros pm a b Ha Hb. pose proof (ex_in_grid a b Ha Hb) as H. intros k c Hc. specialize (H k c Hc). exact H. Qed.
Lemma case_stencil : forall pm a b, -1 <= a < 1 -> -1 <= b < 1 -> exists items, stencil base_g2p (case_p pm) case_axes (pt a b) = Ok items /\
  forall it, In it items -> rd case_nodes (it_idx it) = Ok zero_node.
Proof.
  intros pm a b Ha Hb. pose proof (geolaws (Geo2 R) (or_introl eq_refl)) as GL.
  assert (Hdx : 0 < dx (case_p pm)) by (cbn; lra).
  pose proof (case_grid pm) as GO. assert (Cv : Covered (case_p pm) case_axes (pt a b)) by (apply in_grid_covered; auto; apply case_in; auto).
  destruct (stencil_cov (case_p pm) Hdx case_axes (pt a b) GO Cv) as (_ & B & S). eexists. split; [exact B|].
  intros it Hi. pose proof (sl_idx _ _ _ _ S it Hi) as Hz.
  destruct (rd_some case_nodes (it_idx it)) as (nd & E); [exact Hz|]. rewrite E. f_equal.
  apply rd_In in E. eapply repeat_spec; eauto.
Qed.
Lemma fold_const : forall X S (f : S -> X -> res S) l s, (forall x, In x l -> f s x = Ok s) -> foldM f l s = Ok s.
Proof. intros X S f l s H. induction l as [|x l IH]; cbn; auto. rewrite H by now left. cbn. apply IH. intros; apply H; now right. Qed.
(** A particle on a grid at rest keeps F before the plastic correction. *)
Lemma case_run : forall uabs pm a b F o, -1 <= a < 1 -> -1 <= b < 1 -> plasticity svdx uabs (case_p pm) 1 F mzero h0 = Ok o ->
  exists q', g2p_particle (plasticity svdx uabs) (case_p pm) case_axes case_nodes 1 (case_q (pt a b) F) = Ok (q', (o_exit o, o_count o)) /\
    exists q'', def_particle (plasticity svdx uabs) (case_p pm) case_axes case_nodes 1 (case_q (pt a b) F) = Ok (q'', (o_exit o, o_count o)).
Proof.
  intros uabs pm a b F o Ha Hb Ho. destruct (case_stencil pm a b Ha Hb) as (items & Es & Hz).
  assert (V : g_vgrad case_nodes items = Ok mzero).
  { apply fold_const. intros it Hi. rewrite (Hz it Hi). cbn [bind]. f_equal. destruct (it_g it). cbn. numR. f_equal; field. }
  assert (P : g_pic case_nodes items = Ok vzero).
  { apply fold_const. intros it Hi. rewrite (Hz it Hi). cbn [bind]. f_equal. cbn. numR. f_equal; field. }
  assert (Fl : g_flip case_nodes items = Ok vzero).
  { apply fold_const. intros it Hi. rewrite (Hz it Hi). cbn [bind]. f_equal. cbn. numR. f_equal; field. }
  assert (FT : F_trial 1 mzero F = F) by (unfold F_trial; destruct F; cbn; numR; f_equal; field).
  eexists. split; [|eexists].
  - unfold g2p_particle. cbv zeta. cbn [q_x case_q]. rewrite Es. cbn [bind]. rewrite P. cbn [bind]. rewrite V. cbn [bind].
    assert (C1 : (flip_ratio (case_p pm) <? #0)%num = false) by (rewrite nofZ_R; cbn [flip_ratio case_p pl_par]; numR; destruct (Rltb_spec 1 0); [lra|auto]). rewrite C1. cbn [bind].
    assert (C2 : (flip_ratio (case_p pm) >=? #(-1))%num = true) by (rewrite nofZ_R; cbn [flip_ratio case_p pl_par]; numR; destruct (Rleb_spec (-1) 1); [auto|lra]). rewrite C2, Fl. cbn [bind].
    cbn [use_musl case_p pl_par]. fold (case_p pm). unfold strain_particle. cbn [q_F q_tau q_h case_q]. rewrite FT, Ho. reflexivity.
  - unfold def_particle. cbn [q_x case_q]. rewrite Es. cbn [bind]. rewrite V. cbn [bind]. unfold strain_particle. cbn [q_F q_tau q_h case_q].
    assert (Hr : reset_dg h0 = h0) by (unfold reset_dg, h0; cbn [h_dev h_vol h_prad h_visc h_muI]; f_equal; rewrite ?nofZ_R; numR; field). rewrite Hr. rewrite FT, Ho. reflexivity.
Qed.
Lemma case_elastic : forall uabs, exists o, plasticity svdx uabs (case_p Tools.VM) 1 (stretch (1/10) 0) mzero h0 = Ok o /\ o_exit o = false /\ o_count o = 0%nat.
Proof.
  intros uabs. destruct (C34_ex uabs) as ((o & U & D) & _). exists o. destruct (C34_elastic_states _ (or_introl eq_refl) svdx uabs _ 1 _ _ _ o U D) as (_ & _ & _ & _ & C & X).
  split; auto. apply U.
Qed.
Lemma case_yield : forall uabs, exists o, plasticity svdx uabs (case_p VMVisc) 1 (stretch 1 0) mzero h0 = Ok o /\ o_exit o = false /\ o_count o = 1%nat.
Proof.
  intros uabs. destruct (C38_ex uabs 1 ltac:(lra)) as ((o & U & D1 & D2) & _). exists o.
  destruct (C38_viscous_von_mises _ (or_introl eq_refl) svdx uabs _ 1 _ _ _ o U eq_refl D1 D2) as (g & q' & V & E & _). split; [apply U|]. split; [apply E; reflexivity|apply V].
Qed.
Definition case_cloud (F : @TM R (Geo2 R)) : @Particles R (Geo2 R) := pack [case_q (pt (1/2) (1/4)) F; case_q (pt (-1/2) (3/4)) F].

(** The hypotheses of the positive theorems are met. *)
Example C83_ex : forall uabs, consistent (case_cloud (stretch (1/10) 0)) 2 /\ thread_schedule [[1]; []; [0]]%nat 2 /\
  (exists P', g2p (plasticity svdx uabs) (case_p Tools.VM) case_axes case_nodes 1 [1; 0]%nat (case_cloud (stretch (1/10) 0)) = Ok (P', (false, 0%nat))) /\
  (exists P', deformationUpdate (plasticity svdx uabs) (case_p VMVisc) case_axes case_nodes 1 [1; 0]%nat (case_cloud (stretch 1 0)) = Ok (P', (false, 2%nat))) /\
  (exists g, p2g_accumulate ep [ax5; ax5] ex_cloud [[1]; []; [0]]%nat (resizeGrid [ax5; ax5]) = Ok g) /\
  GridOk ep [ax5; ax5].
Proof.
  intros uabs. split; [apply pack_consistent|]. split; [apply ex_sched|]. split; [|split; [|split]].
  - destruct (case_elastic uabs) as (o & Ho & E1 & E2).
    destruct (case_run uabs Tools.VM (1/2) (1/4) _ o ltac:(lra) ltac:(lra) Ho) as (q0 & R0 & _). destruct (case_run uabs Tools.VM (-1/2) (3/4) _ o ltac:(lra) ltac:(lra) Ho) as (q1 & R1 & _).
    rewrite E1, E2 in *. exists (pack [q0; q1]). unfold g2p, case_cloud. apply (ploop_Ok _ [1; 0]%nat); [apply perm_swap|].
    exists [(q0, (false, 0%nat)); (q1, (false, 0%nat))]. split; [cbn [mapM bind]; rewrite R0; cbn [bind]; rewrite R1; reflexivity|reflexivity].
  - destruct (case_yield uabs) as (o & Ho & E1 & E2).
    destruct (case_run uabs VMVisc (1/2) (1/4) _ o ltac:(lra) ltac:(lra) Ho) as (_ & _ & q0 & R0). destruct (case_run uabs VMVisc (-1/2) (3/4) _ o ltac:(lra) ltac:(lra) Ho) as (_ & _ & q1 & R1).
    rewrite E1, E2 in *. exists (pack [q0; q1]). unfold deformationUpdate, case_cloud. apply (ploop_Ok _ [1; 0]%nat); [apply perm_swap|].
    exists [(q0, (false, 1%nat)); (q1, (false, 1%nat))]. split; [cbn [mapM bind]; rewrite R0; cbn [bind]; rewrite R1; reflexivity|reflexivity].
  - destruct C08_applies as (nodes & E & _). unfold p2g in E. apply bind_Ok in E. destruct E as (g & E & _). eauto.
  - apply ex_grid_ok.
Qed.

(** Two moving particles beside a moving plate, with MUSL: the loops over the grid run through. *)
Example C83_ex_grid : exists (p : @Par R (Geo2 R)) axes P plates dt grav (nodes nodes' : list (@Node R (Geo2 R))) order sched g,
  GridOk p axes /\ Z.of_nat (length nodes) = grid_nodes axes /\ Permutation order (seq 0 (length nodes)) /\
  euler p plates dt grav axes order nodes = Ok nodes' /\ (exists nl, node_list axes = Ok nl) /\
  consistent P 2 /\ thread_schedule sched 2 /\ musl_grid p axes P sched nodes' = Ok g.
Proof.
  destruct (C59_C60_ex svdx (fun x => x) true) as (af & s1 & E). cbv zeta in E. destruct E as (_ & _ & _ & Hm & V & W & E & GO & _ & L).
  match type of E with advanceStep _ _ _ ?p _ ?s = _ => set (p0 := p) in *; set (s0 := s) in * end.
  pose proof (geolaws (Geo2 R) (or_introl eq_refl)) as GL.
  destruct (wf_pack s0 2 W) as (l & Ll & El & Nl & Fl). destruct (step_run svdx (fun x => x) af p0 rev_sched s0 s1 l V El Nl Fl E) as [[axes ms g1 g2 rs Er Rd Rp Re Rg Rr Sx _ _ _ _]].
  rewrite Hm in Rr. destruct Rr as (g3 & rs3 & Mu & _). rewrite Sx in GO.
  assert (Lg : Z.of_nat (length g1) = prodlen axes).
  { rewrite (OutputProofs.p2g_len _ _ _ _ _ _ Rp). unfold resizeGrid. rewrite repeat_length, (grid_nodes_val p0); auto. pose proof (prodlen_pos p0 axes GO). rewrite Z2Nat.id; lia. }
  exists p0, axes, (pack (map (fun r => blend_of p0 (fst r)) rs)), (s_plates s0), (s_dt s1), (s_grav s1), g1, g2, (sc_euler rev_sched (Z.to_nat (grid_nodes axes))), (sc_musl rev_sched (length l)), g3.
  split; [exact GO|]. split; [rewrite (grid_nodes_val p0); auto|]. split; [replace (length g1) with (Z.to_nat (grid_nodes axes)) by (rewrite (grid_nodes_val p0); auto; lia); apply (vs_euler _ V)|].
  split; [exact Re|]. split; [eexists; apply (node_list_spec p0); auto|]. split; [|split; [rewrite Ll; apply (vs_musl _ V)|exact Mu]].
  apply mapM_length in Rg. replace 2%nat with (length (map (fun r => blend_of p0 (fst r)) rs)) by (rewrite map_length; lia). apply pack_consistent.
Qed.

(** Without MUSL, the loop of G2P is not race-free, and what it prints may be wrong: two particles yield
    (the serial count is 2), and one interleaving ends with the count 1. *)
Theorem C83_counter_refuted : forall uabs, exists p axes nodes P P', consistent P 2 /\ use_musl p = false /\
  let pl := plasticity svdx uabs in
  g2p pl p axes nodes 1 [0; 1]%nat P = Ok (P', (false, 2%nat)) /\
  let start := Some (mkConf (mem_of (g2p_fill P) nodes 0 false) (map (thread_of (g2p_iter p pl axes 1)) [[0]; [1]]%nat) None) in
  (exists s, reaches start s /\ race s) /\ reaches start (Some (mkConf (mem_of P' nodes 1 false) [Done; Done] None)).
Proof.
  intros uabs. destruct (case_yield uabs) as (o & Ho & E1 & E2).
  destruct (case_run uabs VMVisc (1/2) (1/4) _ o ltac:(lra) ltac:(lra) Ho) as (q0 & R0 & _). destruct (case_run uabs VMVisc (-1/2) (3/4) _ o ltac:(lra) ltac:(lra) Ho) as (q1 & R1 & _).
  rewrite E1, E2 in *. exists (case_p VMVisc), case_axes, case_nodes, (case_cloud (stretch 1 0)), (pack [q0; q1]).
  split; [apply pack_consistent|]. split; [reflexivity|]. exact (C83_counter_race _ _ _ (case_p VMVisc) (plasticity svdx uabs) case_axes case_nodes 1 _ _ _ _ 0%nat false eq_refl R0 R1).
Qed.
(** PBCAddParticles is not race-free. *)
Theorem C83_pbc_refuted : exists (p : @Par R (Geo2 R)) P nodes, consistent P 2 /\
  exists s, reaches (Some (mkConf (mem_of P nodes 0 false) (map (thread_of (pbc_iter p 4)) [[0]; [1]]%nat) None)) s /\ race s.
Proof.
  exists (case_p Tools.VM), (case_cloud mident), case_nodes. split; [apply pack_consistent|].
  apply (C83_pbc_race _ _ _ (case_p Tools.VM) 4 case_nodes (case_cloud mident) (pt (1/2) (1/4))); [reflexivity|].
  rewrite ?nofZ_R. cbn [Types.Lx Types.dx case_p pl_par]. cbn. numR. apply andb_true_iff. split.
  - destruct (Rltb_spec (1 - 1/2) (4 * 1)); [auto|lra].
  - destruct (Rltb_spec 0 (1 - 1/2)); [auto|lra].
Qed.
Print Assumptions C83_g2p_partial.
Print Assumptions C83_deformation.
Print Assumptions C83_velocity.
Print Assumptions C83_position.
Print Assumptions C83_average.
Print Assumptions C83_euler.
Print Assumptions C83_p2g.
Print Assumptions C83_musl.
Print Assumptions C83_counter_race.
Print Assumptions C83_counter_refuted.
Print Assumptions C83_pbc_race.
Print Assumptions C83_pbc_refuted.
