(** * StepProofs: what one time step computes, per node and per particle. *)
From Coq Require Import Reals ZArith Lra Lia List Bool Permutation.
From Verif Require Import Num NumR Tools Lin Types Remesh Objects Transfer Rma Plastic Pbc Step Spec SpecStep LinProofs ResProofs
  AccumProofs GridProofs StencilProofs IndexProofs RemeshProofs GradProofs P2GProofs ConsProofs MuslProofs PloopProofs PbcProofs PlateProofs.
Import ListNotations.
Local Open Scope R_scope.

Lemma Rabs_le_iv : forall a b, Rabs a <= b -> - b <= a <= b.
Proof. intros a b H. unfold Rabs in H. destruct (Rcase_abs a); lra. Qed.

(** A loop whose iteration [k] rewrites only entry [k]. *)
Section Iloop.
  Context {X : Type}.
  Variable f : nat -> X -> res X.
  Definition istep (g : list X) (k : nat) : res (list X) :=
    x <- rd g (Z.of_nat k) ;; y <- f k x ;; upd g (Z.of_nat k) (fun _ => y).
  Lemma istep_Ok : forall g k g', istep g k = Ok g' -> exists x y, nth_error g k = Some x /\ f k x = Ok y /\ length g' = length g /\
    forall j, nth_error g' j = if Nat.eqb k j then Some y else nth_error g j.
  Proof.
    intros g k g' H. unfold istep in H. apply bind_Ok in H. destruct H as (x & Ex & H). apply bind_Ok in H. destruct H as (y & Ey & H).
    apply upd_inv in H. destruct H as (_ & L & At). rewrite Nat2Z.id in At. rewrite rd_nat in Ex. destruct (nth_error g k) eqn:E; [|discriminate]. injection Ex as ->.
    exists x, y. split; auto. split; auto. split; auto. intros j. rewrite At. destruct (Nat.eqb_spec k j); auto. subst. now rewrite E.
  Qed.
  Lemma ifold_fwd : forall sched g g', NoDup sched -> foldM istep sched g = Ok g' -> length g' = length g /\
    (forall k, In k sched -> exists x y, nth_error g k = Some x /\ f k x = Ok y /\ nth_error g' k = Some y) /\
    (forall k, ~ In k sched -> nth_error g' k = nth_error g k).
  Proof.
    induction sched as [|i sched IH]; intros g g' ND H; cbn in H.
    - injection H as <-. split; auto. split; [intros ? []|auto].
    - inversion ND as [|? ? Ni ND']; subst. apply bind_Ok in H. destruct H as (g1 & E1 & H).
      destruct (istep_Ok _ _ _ E1) as (x & y & Ex & Ey & L & At). destruct (IH _ _ ND' H) as (L' & A & B).
      split; [congruence|]. split.
      + intros k [<-|Hk].
        * exists x, y. split; auto. split; auto. rewrite B, At, Nat.eqb_refl by auto. auto.
        * destruct (A k Hk) as (x' & y' & C & D & E). rewrite At in C. destruct (Nat.eqb_spec i k); [congruence|]. eauto.
      + intros k Hk. rewrite B by (intros K; apply Hk; now right). rewrite At. destruct (Nat.eqb_spec i k); [subst; exfalso; apply Hk; now left|auto].
  Qed.
  Lemma ifold_bwd : forall sched g, NoDup sched -> (forall k, In k sched -> exists x y, nth_error g k = Some x /\ f k x = Ok y) ->
    exists g', foldM istep sched g = Ok g'.
  Proof.
    induction sched as [|i sched IH]; intros g ND H; cbn; [eauto|]. inversion ND as [|? ? Ni ND']; subst.
    destruct (H i (or_introl eq_refl)) as (x & y & Ex & Ey).
    assert (Hi : (i < length g)%nat) by (apply nth_error_Some; congruence).
    destruct (upd_Ok g (Z.of_nat i) (fun _ => y)) as (g1 & E & L & At); [lia|]. rewrite Nat2Z.id in At.
    assert (E1 : istep g i = Ok g1) by (unfold istep; rewrite rd_nat, Ex; cbn [bind]; rewrite Ey; cbn [bind]; auto).
    rewrite E1. cbn [bind]. apply IH; auto. intros k Hk. destruct (H k (or_intror Hk)) as (x' & y' & A & B). exists x', y'. split; auto.
    rewrite At. destruct (Nat.eqb_spec i k); [congruence|auto].
  Qed.
  Lemma ifold_perm : forall sched n g g', Permutation sched (seq 0 n) -> length g = n -> foldM istep sched g = Ok g' -> length g' = n /\
    (forall k x, nth_error g k = Some x -> exists y, f k x = Ok y /\ nth_error g' k = Some y).
  Proof.
    intros sched n g g' Hp Hl H. destruct (perm_seq _ _ Hp) as (ND & HI). destruct (ifold_fwd _ _ _ ND H) as (L & A & _). split; [congruence|].
    intros k x Ex. destruct (A k) as (x' & y & E1 & E2 & E3).
    - apply HI. rewrite <- Hl. apply nth_error_Some. congruence.
    - exists y. split; congruence.
  Qed.
End Iloop.

(** ** The step, in any arithmetic *)
Section StepG.
  Context {Ar : Type} {NA : Num Ar} {G : Geo Ar}.
  Variable svd : TM -> TM * TV * TM.
  Variable uabs : Ar -> Ar.

  Definition move_of (p : Par Ar) (dt : Ar) (q : P1 Ar) : P1 Ar :=
    let q1 := set_x q (pos_hack p (pbc_wrap p (vadd (q_x q) (lscale dt (q_pic q))))) in
    if use_musl p then q1 else set_v q1 (new_velocity p q).
  Definition blend_of (p : Par Ar) (q : P1 Ar) : P1 Ar := set_v q (new_velocity p q).
  Definition grid_particles (p : Par Ar) (sc : Sched) (l : list (P1 Ar)) : Particles Ar :=
    if use_pbc p then ext l (ghosts p 4 l (sc_pbc sc (length l))) else pack l.

  Lemma wrapu_small : forall z, (0 <= z <= 4294967295)%Z -> wrapu z = z.
  Proof. intros z H. unfold wrapu. apply Z.mod_small. lia. Qed.

  Record Run (af : nat) (p : Par Ar) (sc : Sched) (s0 s1 : St Ar) (l : list (P1 Ar)) : Type := mkRun {
    ru_axes : list (Axis Ar); ru_mesh : list (MeshAx Ar); ru_g1 : list (Node Ar); ru_g2 : list (Node Ar); ru_rs : list (P1 Ar * Flags);
    ru_remesh : exists s', remesh af p (with_dt s0 (s_dt s1) (s_grav s1)) = Ok s' /\ s_axes s' = ru_axes /\ s_mesh s' = ru_mesh;
    ru_dt : updateDt p s0 = Ok (with_dt s0 (s_dt s1) (s_grav s1));
    ru_p2g : p2g p ru_axes (grid_particles p sc l) (sc_p2g sc (length (p_x (grid_particles p sc l)))) (resizeGrid ru_axes) = Ok ru_g1;
    ru_euler : euler p (s_plates s0) (s_dt s1) (s_grav s1) ru_axes (sc_euler sc (Z.to_nat (grid_nodes ru_axes))) ru_g1 = Ok ru_g2;
    ru_g2p : mapM (g2p_particle (plast svd uabs) p ru_axes ru_g2 (s_dt s1)) l = Ok ru_rs;
    ru_rest : if use_musl p then
        exists g3 rs3, musl_grid p ru_axes (pack (map (fun r => blend_of p (fst r)) ru_rs)) (sc_musl sc (length l)) ru_g2 = Ok g3 /\
          mapM (def_particle (plast svd uabs) p ru_axes g3 (s_dt s1)) (map (fun r => blend_of p (fst r)) ru_rs) = Ok rs3 /\
          s_nodes s1 = g3 /\ s_p s1 = pack (map (fun r => move_of p (s_dt s1) (fst r)) rs3) /\
          s_exit s1 = s_exit s0 || existsb (fun r => fst (snd r)) ru_rs || existsb (fun r => fst (snd r)) rs3
      else s_nodes s1 = ru_g2 /\ s_p s1 = pack (map (fun r => move_of p (s_dt s1) (fst r)) ru_rs) /\
           s_exit s1 = s_exit s0 || existsb (fun r => fst (snd r)) ru_rs;
    ru_saxes : s_axes s1 = ru_axes; ru_smesh : s_mesh s1 = ru_mesh; ru_Np : s_Np s1 = s_Np s0;
    ru_step : s_step s1 = s_step s0; ru_gravf : s_gravf s1 = s_gravf s0 }.

  Lemma wf_pack : forall s n, well_formed s n -> exists l, length l = n /\ s_p s = pack l /\ s_Np s = Z.of_nat (length l) /\ (Z.of_nat (length l) <= 2147483647)%Z.
  Proof.
    intros s n (C & N & F). destruct (consistent_pack _ _ C) as (l & L & E). exists l. rewrite L. auto.
  Qed.
  Lemma ghosts_len : forall p sf l sched, (length (ghosts p sf l sched) <= length sched)%nat.
  Proof.
    intros. unfold ghosts. induction sched as [|i sched IH]; cbn [flat_map length]; auto. rewrite app_length.
    assert (Hg : (length (match nth_error l i with Some q => ghost p sf q | None => [] end) <= 1)%nat).
    { destruct (nth_error l i) as [q|]; [|auto]. unfold ghost. destruct (pbc_image p sf (q_x q)); auto. }
    lia.
  Qed.
  Lemma grid_len : forall p sc l, valid_sched sc -> (length (p_x (grid_particles p sc l)) <= 2 * length l)%nat.
  Proof.
    intros p sc l V. unfold grid_particles. destruct (use_pbc p); cbn [ext pack p_x]; rewrite ?app_length, !map_length; [|lia].
    pose proof (ghosts_len p 4 l (sc_pbc sc (length l))). pose proof (Permutation_length (vs_pbc _ V (length l))) as L. rewrite seq_length in L. lia.
  Qed.
  Lemma pbc_before_spec : forall p sc s l, valid_sched sc -> s_p s = pack l -> s_Np s = Z.of_nat (length l) ->
    exists n nadd, pbc_before p sc s = Ok (with_pn s (grid_particles p sc l) n nadd) /\
      (use_pbc p = false -> n = s_Np s /\ nadd = s_nadd s) /\
      (use_pbc p = true -> n = wrapu (Z.of_nat (length (p_x (grid_particles p sc l)))) /\ nadd = Z.of_nat (length (ghosts p 4 l (sc_pbc sc (length l))))).
  Proof.
    intros p sc s l V E N. unfold pbc_before, grid_particles. destruct (use_pbc p).
    - rewrite E, N, Nat2Z.id, pbcAdd_spec.
      + cbn [bind fst snd]. eexists _, _. split; [reflexivity|]. split; [discriminate|auto].
      + intros i Hi. apply (perm_seq _ _ (vs_pbc _ V (length l))) in Hi. auto.
    - exists (s_Np s), (s_nadd s). split; [|split; [auto|discriminate]]. rewrite <- E. destruct s; reflexivity.
  Qed.
  Lemma pbc_after_spec : forall p sc s l n nadd g, s_p s = pack l -> s_Np s = Z.of_nat (length l) -> (Z.of_nat (length l) <= 4294967295)%Z ->
    (use_pbc p = false -> n = s_Np s /\ nadd = s_nadd s) ->
    (use_pbc p = true -> nadd = Z.of_nat (length (ghosts p 4 l (sc_pbc sc (length l))))) ->
    pbc_after p (with_nodes (with_pn s (grid_particles p sc l) n nadd) g) = Ok (with_pn (with_nodes s g) (pack l) (Z.of_nat (length l)) nadd).
  Proof.
    intros p sc s l n nadd g E N F H0 H1. unfold pbc_after, grid_particles. destruct (use_pbc p).
    - cbn [s_nadd with_nodes with_pn s_p]. rewrite (H1 eq_refl), pbcDel_spec. cbn [bind]. unfold with_pn, with_nodes.
      cbn [s_p s_Np s_nadd s_axes s_nodes s_mesh s_time s_frame s_step s_dt s_grav s_gravf s_plates s_exit].
      replace (wrapu (Z.of_nat (length (p_x (pack l))))) with (Z.of_nat (length l)); [reflexivity|].
      cbn [pack p_x]. rewrite map_length. symmetry. apply wrapu_small. lia.
    - destruct (H0 eq_refl) as (-> & ->). rewrite N. reflexivity.
  Qed.

  Ltac unst := unfold npn, with_pn, with_p, with_nodes, with_grid, with_dt, with_exit, with_plates in *; cbn [s_p s_Np s_nadd s_axes s_nodes s_mesh s_time s_frame s_step s_dt s_grav s_gravf s_plates s_exit fst snd] in *.

  Theorem step_run : forall af p sc s0 s1 l, valid_sched sc -> s_p s0 = pack l -> s_Np s0 = Z.of_nat (length l) -> (Z.of_nat (length l) <= 2147483647)%Z ->
    advanceStep svd uabs af p sc s0 = Ok s1 -> inhabited (Run af p sc s0 s1 l).
  Proof.
    intros af p sc s0 s1 l V E0 N0 F0 H. pose proof (grid_len p sc l V) as F1. unfold advanceStep in H. cbv zeta in H.
    apply bind_Ok in H. destruct H as (a1 & E1 & H). apply bind_Ok in H. destruct H as (a2 & E2 & H).
    apply bind_Ok in H. destruct H as (a3 & E3 & H). apply bind_Ok in H. destruct H as (g1 & Eg1 & H).
    apply bind_Ok in H. destruct H as (g2 & Eg2 & H). apply bind_Ok in H. destruct H as (a5 & E5 & H).
    apply bind_Ok in H. destruct H as (r & Er & H). apply bind_Ok in H. destruct H as (a7 & E7 & H).
    apply bind_Ok in H. destruct H as (q & Eq & H).
    pose proof E1 as D1. unfold updateDt in E1. apply bind_Ok in E1. destruct E1 as (sp & Esp & E1).
    remember (dt_of p sp (s_time s0) (s_frame s0)) as dt. remember (gravity_of p (s_time s0) (s_gravf s0) (s_grav s0)) as gr.
    injection E1 as <-.
    assert (X2 : exists ax ms, a2 = with_grid (with_dt s0 dt gr) ax ms).
    { unfold remesh in E2. destruct (use_pbc p); destruct (s_step (with_dt s0 dt gr) =? 0)%Z; invb; try (eexists _, _; reflexivity); exists (s_axes s0), (s_mesh s0); reflexivity. }
    destruct X2 as (ax & ms & ->).
    destruct (pbc_before_spec p sc (with_grid (with_dt s0 dt gr) ax ms) l V E0 N0) as (n & nadd & Eb & B0 & B1).
    rewrite Eb in E3. injection E3 as <-.
    rewrite (pbc_after_spec p sc (with_grid (with_dt s0 dt gr) ax ms) l n nadd g2 E0 N0 ltac:(lia) B0 (fun K => proj2 (B1 K))) in E5. injection E5 as <-.
    unst. rewrite Nat2Z.id in Er.
    assert (Np3 : Z.to_nat n = length (p_x (grid_particles p sc l))).
    { destruct (use_pbc p) eqn:Pb.
      - destruct (B1 eq_refl) as (-> & _). rewrite wrapu_small by lia. apply Nat2Z.id.
      - destruct (B0 eq_refl) as (-> & _). rewrite N0, Nat2Z.id. unfold grid_particles. rewrite Pb. cbn. now rewrite map_length. }
    rewrite Np3 in Eg1.
    apply (ploop_Ok _ _ _ _ (vs_g2p _ V (length l))) in Er. destruct Er as (rs & Ers & ->).
    assert (Lrs : length rs = length l) by (eapply mapM_length; eauto).
    unfold results in *. unst.
    unfold musl_part in E7. destruct (use_musl p) eqn:Mu.
    - unst. rewrite !Nat2Z.id in E7.
      apply bind_Ok in E7. destruct E7 as (rv & Erv & E7). apply bind_Ok in E7. destruct E7 as (g3 & Eg3 & E7). apply bind_Ok in E7. destruct E7 as (d & Ed & E7).
      injection E7 as <-.
      unfold musl_velocities in Erv. pose proof (vs_musl1 _ V (length l)) as Pm. rewrite <- Lrs in Pm at 2. rewrite <- (map_length fst rs) in Pm.
      apply (ploop_Ok _ _ _ _ Pm) in Erv. destruct Erv as (rv' & Erv & ->).
      rewrite (mapM_total _ (fun q => (set_v q (new_velocity p q), (false, 0%nat)))) in Erv by auto. injection Erv as <-.
      unfold results in *. cbn [fst snd] in *. rewrite !map_map in Eg3, Ed. cbn [fst] in Eg3, Ed.
      pose proof (vs_def _ V (length l)) as Pd. rewrite <- Lrs in Pd at 2. rewrite <- (map_length (fun r => blend_of p (fst r)) rs) in Pd.
      apply (ploop_Ok _ _ _ _ Pd) in Ed. destruct Ed as (rs3 & Ers3 & ->). unfold results in *.
      assert (L3 : length rs3 = length l) by (apply mapM_length in Ers3; rewrite map_length in Ers3; congruence).
      unst. rewrite !Nat2Z.id in Eq.
      pose proof (vs_pos _ V (length l)) as Pp. rewrite <- L3 in Pp at 2. rewrite <- (map_length fst rs3) in Pp.
      apply (ploop_Ok _ _ _ _ Pp) in Eq. destruct Eq as (rq & Erq & ->).
      rewrite (mapM_total _ (fun q => (move_of p dt q, (false, 0%nat)))) in Erq.
      2:{ intros x _. unfold pos_particle, move_of. now rewrite Mu. }
      injection Erq as <-. unfold results in H. cbn [fst snd] in H. rewrite !map_map in H. cbn [fst] in H. injection H as <-. constructor.
      refine (mkRun af p sc s0 _ l ax ms g1 g2 rs _ _ _ _ _ _ _ _ _ _ _); auto.
      + exists (with_grid (with_dt s0 dt gr) ax ms). auto.
      + rewrite Mu. exists g3, rs3. repeat split; auto.
    - injection E7 as <-. unst. rewrite !Nat2Z.id in Eq.
      pose proof (vs_pos _ V (length l)) as Pp. rewrite <- Lrs in Pp at 2. rewrite <- (map_length fst rs) in Pp.
      apply (ploop_Ok _ _ _ _ Pp) in Eq. destruct Eq as (rq & Erq & ->).
      rewrite (mapM_total _ (fun q => (move_of p dt q, (false, 0%nat)))) in Erq.
      2:{ intros x _. unfold pos_particle, move_of. now rewrite Mu. }
      injection Erq as <-. unfold results in H. cbn [fst snd] in H. rewrite !map_map in H. cbn [fst] in H. injection H as <-. constructor.
      refine (mkRun af p sc s0 _ l ax ms g1 g2 rs _ _ _ _ _ _ _ _ _ _ _); auto.
      + exists (with_grid (with_dt s0 dt gr) ax ms). auto.
      + rewrite Mu. repeat split; auto.
  Qed.

  Lemma strain_x : forall p dt vg q r, strain_particle (plast svd uabs) p dt vg q = Ok r -> q_x (fst r) = q_x q.
  Proof. intros p dt vg q r H. unfold strain_particle in H. invb. reflexivity. Qed.
  Theorem wf_step : forall af p sc s0 s1 n, valid_sched sc -> well_formed s0 n -> advanceStep svd uabs af p sc s0 = Ok s1 -> well_formed s1 n.
  Proof.
    intros af p sc s0 s1 n V W H. destruct (wf_pack s0 n W) as (l & L & E & N & F). destruct (step_run af p sc s0 s1 l V E N F H) as [Rn].
    destruct W as (C & N' & F'). pose proof (mapM_length _ _ _ (ru_g2p _ _ _ _ _ _ Rn)) as L1.
    assert (X : exists l1, length l1 = n /\ s_p s1 = pack l1).
    { pose proof (ru_rest _ _ _ _ _ _ Rn) as Z. destruct (use_musl p).
      - destruct Z as (g3 & rs3 & _ & M & _ & Ep & _). exists (map (fun r => move_of p (s_dt s1) (fst r)) rs3). split; auto. apply mapM_length in M. rewrite map_length in *. congruence.
      - destruct Z as (_ & Ep & _). eexists. split; [|exact Ep]. rewrite map_length. congruence. }
    destruct X as (l1 & L2 & Ep). split; [rewrite Ep, <- L2; apply pack_consistent|]. split; [|exact F']. now rewrite (ru_Np _ _ _ _ _ _ Rn).
  Qed.
End StepG.

Section StepP.
  Context {G : Geo R} {GL : GeoLaws G}.
  Variable svd : TM -> TM * TV * TM.
  Variable uabs : R -> R.

  (** ** The grid update *)
  Lemma euler_iloop : forall p plates dt grav axes sched nodes, GridOk p axes ->
    (forall k, In k sched -> (k < Z.to_nat (prodlen axes))%nat) ->
    euler p plates dt grav axes sched nodes = foldM (istep (fun k nd => euler_node p plates dt grav (node_pos p axes k) nd)) sched nodes.
  Proof.
    intros p plates dt grav axes sched nodes GO H. unfold euler. rewrite (node_list_spec p axes GO). cbn [bind].
    revert nodes. induction sched as [|k sched IH]; intros nodes; auto. cbn [foldM].
    assert (Ek : rd (map (fun n => (Z.of_nat n, node_pos p axes n)) (seq 0 (Z.to_nat (prodlen axes)))) (Z.of_nat k) = Ok (Z.of_nat k, node_pos p axes k)).
    { rewrite rd_nat, nth_error_seq_map. assert (K := H k (or_introl eq_refl)). apply Nat.ltb_lt in K. now rewrite K. }
    rewrite Ek. cbn [bind fst snd]. unfold istep at 1. cbn [foldM].
    destruct (rd nodes (Z.of_nat k)) as [nd| |]; cbn [bind]; auto. destruct (euler_node p plates dt grav (node_pos p axes k) nd) as [nd'| |]; cbn [bind]; auto.
    destruct (upd nodes (Z.of_nat k) (fun _ => nd')) as [g1| |]; cbn [bind]; auto. apply IH. intros; apply H; now right.
  Qed.
  Theorem euler_spec : forall p plates dt grav axes sched nodes g, GridOk p axes -> Permutation sched (seq 0 (Z.to_nat (grid_nodes axes))) ->
    Z.of_nat (length nodes) = prodlen axes ->
    euler p plates dt grav axes sched nodes = Ok g -> length g = length nodes /\
    forall j nd, nth_error nodes j = Some nd -> exists nd', euler_node p plates dt grav (node_pos p axes j) nd = Ok nd' /\ nth_error g j = Some nd'.
  Proof.
    intros p plates dt grav axes sched nodes g GO Hp Hl H. rewrite (grid_nodes_val p axes GO) in Hp.
    rewrite euler_iloop in H by (auto; intros k Hk; apply (perm_seq _ _ Hp); auto).
    apply (ifold_perm _ _ _ _ _ Hp) in H; [|lia]. destruct H as (L & A). split; [lia|auto].
  Qed.
  Theorem euler_exists : forall p plates dt grav axes sched nodes, GridOk p axes -> Permutation sched (seq 0 (Z.to_nat (grid_nodes axes))) ->
    Z.of_nat (length nodes) = prodlen axes ->
    (forall j nd, nth_error nodes j = Some nd -> exists nd', euler_node p plates dt grav (node_pos p axes j) nd = Ok nd') ->
    exists g, euler p plates dt grav axes sched nodes = Ok g.
  Proof.
    intros p plates dt grav axes sched nodes GO Hp Hl H. rewrite (grid_nodes_val p axes GO) in Hp.
    destruct (perm_seq _ _ Hp) as (ND & HI).
    rewrite euler_iloop by (auto; intros k Hk; apply HI; auto). apply ifold_bwd; auto.
    intros k Hk. apply HI in Hk. destruct (nth_error nodes k) as [nd|] eqn:E; [|apply nth_error_None in E; lia].
    destruct (H k nd E) as (nd' & E'). eauto.
  Qed.

  (** ** Interpolation to a particle *)
  Definition nd_at (nodes : list (Node R)) (it : Item R) : Node R := nth (Z.to_nat (it_idx it)) nodes zero_node.
  Lemma rd_nd_at : forall nodes it, (0 <= it_idx it < Z.of_nat (length nodes))%Z -> rd nodes (it_idx it) = Ok (nd_at nodes it).
  Proof.
    intros nodes it H. apply rd_Ok. split; [lia|]. unfold nd_at. apply nth_error_nth'. lia.
  Qed.
  Lemma gather_fold : forall (Y : Type) (f : Item R -> Node R -> Y -> Y) nodes items (a : Y),
    (forall it, In it items -> (0 <= it_idx it < Z.of_nat (length nodes))%Z) ->
    foldM (fun acc it => nd <- rd nodes (it_idx it) ;; Ok (f it nd acc)) items a = Ok (fold_left (fun acc it => f it (nd_at nodes it) acc) items a).
  Proof.
    intros Y f nodes items. induction items as [|it items IH]; intros a H; auto. cbn [foldM fold_left].
    rewrite rd_nd_at by (apply H; now left). cbn [bind]. apply IH. intros; apply H; now right.
  Qed.
  Lemma fold_madd : forall X (f : X -> TM) l a i j, (i < dim)%nat -> (j < dim)%nat ->
    mget (fold_left (fun a x => madd a (f x)) l a) i j = mget a i j + Rsum (fun x => mget (f x) i j) l.
  Proof.
    intros X f l. induction l as [|x l IH]; intros a i j Hi Hj; cbn [fold_left Rsum]; [lra|]. rewrite IH by auto. rewrite mget_add by auto. lra.
  Qed.
  Section At.
    Variable (nodes : list (Node R)) (items : list (Item R)).
    Hypothesis Hin : forall it, In it items -> (0 <= it_idx it < Z.of_nat (length nodes))%Z.
    Lemma g_pic_val : exists v, g_pic nodes items = Ok v /\ forall k, (k < dim)%nat ->
      vget v k = Rsum (fun it => it_w it * vget (nd_v (nd_at nodes it)) k) items.
    Proof.
      eexists. split; [apply gather_fold; auto|]. intros k Hk. cbv beta. rewrite fold_vadd by auto. rewrite vget_zero by auto. rewrite Rplus_0_l.
      apply Rsum_ext. intros. rewrite vget_scale by auto. apply Rmult_comm.
    Qed.
    Lemma g_flip_val : exists v, g_flip nodes items = Ok v /\ forall k, (k < dim)%nat ->
      vget v k = Rsum (fun it => it_w it * vget (nd_flip (nd_at nodes it)) k) items.
    Proof.
      eexists. split; [apply gather_fold; auto|]. intros k Hk. cbv beta. rewrite fold_vadd by auto. rewrite vget_zero by auto. rewrite Rplus_0_l.
      apply Rsum_ext. intros. rewrite vget_scale by auto. apply Rmult_comm.
    Qed.
    Lemma g_vgrad_val : exists m, g_vgrad nodes items = Ok m /\ forall i j, (i < dim)%nat -> (j < dim)%nat ->
      mget m i j = Rsum (fun it => vget (nd_v (nd_at nodes it)) i * vget (it_g it) j) items.
    Proof.
      eexists. split; [apply gather_fold; auto|]. intros i j Hi Hj. cbv beta. rewrite fold_madd by auto. rewrite mget_zero by auto. rewrite Rplus_0_l.
      apply Rsum_ext. intros. now rewrite mget_outer by auto.
    Qed.
    Lemma g_B_val : forall x, exists m, g_B x nodes items = Ok m /\ forall i j, (i < dim)%nat -> (j < dim)%nat ->
      mget m i j = Rsum (fun it => it_w it * vget (nd_v (nd_at nodes it)) i * (vget (it_x it) j - vget x j)) items.
    Proof.
      intros x. eexists. split; [apply gather_fold; auto|]. intros i j Hi Hj. cbv beta. rewrite fold_madd by auto. rewrite mget_zero by auto. rewrite Rplus_0_l.
      apply Rsum_ext. intros. rewrite mget_scale, mget_outer, vget_sub by auto. ring.
    Qed.
  End At.

  Lemma grid_readable : forall p sc l, (use_pbc p = true -> use_mibf p = false) ->
    readable p (grid_particles p sc l) (length (p_x (grid_particles p sc l))).
  Proof.
    intros p sc l H. unfold grid_particles, readable. destruct (use_pbc p); cbn [ext pack p_x p_v p_tau p_B p_hist]; rewrite ?app_length, !map_length; repeat split; auto.
    intros M. rewrite H in M by auto. discriminate.
  Qed.

  (** ** One particle of G2P and of deformationUpdate *)
  Section One.
    Variable p : Par R.
    Hypothesis Hdx : 0 < dx p.
    Variables (axes : list (Axis R)) (nodes : list (Node R)) (x : TV).
    Hypothesis GO : GridOk p axes.
    Hypothesis Hl : Z.of_nat (length nodes) = prodlen axes.
    Hypothesis Cov : Covered p axes x.
    Let items := items_of p axes x.

    Definition grad_val (m : TM) : Prop := forall i j, (i < dim)%nat -> (j < dim)%nat ->
      mget m i j = Rsum (fun it => vget (nd_v (nd_at nodes it)) i * vget (it_g it) j) items.
    Record Gathered (pic : TV) (B : TM) (fl : TV) : Prop := {
      ga_pic : forall k, (k < dim)%nat -> vget pic k = Rsum (fun it => it_w it * vget (nd_v (nd_at nodes it)) k) items;
      ga_B : flip_ratio p < 0 -> forall i j, (i < dim)%nat -> (j < dim)%nat ->
        mget B i j = Rsum (fun it => it_w it * vget (nd_v (nd_at nodes it)) i * (vget (it_x it) j - vget x j)) items;
      ga_B0 : 0 <= flip_ratio p -> B = mzero;
      ga_fl : -1 <= flip_ratio p -> forall k, (k < dim)%nat -> vget fl k = Rsum (fun it => it_w it * vget (nd_flip (nd_at nodes it)) k) items;
      ga_fl0 : flip_ratio p < -1 -> fl = vzero }.

    Lemma items_in : forall it, In it items -> (0 <= it_idx it < Z.of_nat (length nodes))%Z.
    Proof. intros it Hit. rewrite Hl. destruct (stencil_cov p Hdx axes x GO Cov) as (_ & _ & S). eapply sl_idx; eauto. Qed.

    Lemma g2p_eq : forall pl dt q, q_x q = x -> exists pic vgrad B fl, Gathered pic B fl /\ grad_val vgrad /\
      g2p_particle pl p axes nodes dt q
      = (let q' := mkP1 x (q_v q) pic fl (q_h q) (q_F q) B (q_tau q) in
         if use_musl p then Ok (q', (false, 0%nat)) else strain_particle pl p dt vgrad q').
    Proof.
      intros pl dt q Ex. unfold g2p_particle. cbv zeta. rewrite Ex.
      destruct (stencil_cov p Hdx axes x GO Cov) as (_ & -> & S). cbn [bind]. fold items.
      destruct (g_pic_val nodes items items_in) as (pic & E1 & V1). destruct (g_vgrad_val nodes items items_in) as (vg & E2 & V2).
      destruct (g_B_val nodes items items_in x) as (B & E3 & V3). destruct (g_flip_val nodes items items_in) as (fl & E4 & V4).
      rewrite E1. cbn [bind]. rewrite E2. cbn [bind].
      exists pic, vg, (if Rltb (flip_ratio p) 0 then B else mzero), (if Rleb (-1) (flip_ratio p) then fl else vzero).
      split; [|split; [exact V2|]].
      - constructor; auto.
        + intros H. destruct (Rltb_spec (flip_ratio p) 0); [auto|lra].
        + intros H. destruct (Rltb_spec (flip_ratio p) 0); [lra|auto].
        + intros H. destruct (Rleb_spec (-1) (flip_ratio p)); [auto|lra].
        + intros H. destruct (Rleb_spec (-1) (flip_ratio p)); [lra|auto].
      - rewrite !nofZ_R. numR.
        assert (EB : (if Rltb (flip_ratio p) 0 then g_B x nodes items else Ok mzero) = Ok (if Rltb (flip_ratio p) 0 then B else mzero)) by (destruct (Rltb (flip_ratio p) 0); auto).
        assert (EF : (if Rleb (-1) (flip_ratio p) then g_flip nodes items else Ok vzero) = Ok (if Rleb (-1) (flip_ratio p) then fl else vzero)) by (destruct (Rleb (-1) (flip_ratio p)); auto).
        rewrite EB. cbn [bind]. rewrite EF. reflexivity.
    Qed.
    Lemma def_eq : forall pl dt q, q_x q = x -> exists vgrad, grad_val vgrad /\
      def_particle pl p axes nodes dt q
      = strain_particle pl p dt vgrad (mkP1 x (q_v q) (q_pic q) (q_flip q) (reset_dg (q_h q)) (q_F q) (q_B q) (q_tau q)).
    Proof.
      intros pl dt q Ex. unfold def_particle. rewrite Ex.
      destruct (stencil_cov p Hdx axes x GO Cov) as (_ & -> & S). cbn [bind]. fold items.
      destruct (g_vgrad_val nodes items items_in) as (vg & E2 & V2). rewrite E2. cbn [bind]. eauto.
    Qed.
  End One.

  (** ** Existence of a step *)
  Lemma collide_defined : forall bc fric n v, exists v', collide bc fric (Ok n) v = Ok v'.
  Proof.
    intros bc fric n v. unfold collide. destruct bc; cbn [bind]; cbv zeta; eauto;
      repeat match goal with |- context [if ?b then _ else _] => destruct b end; eauto.
  Qed.
  Lemma bc_defined : forall p plates dt fr X v, obstacles_defined p -> exists v', boundaryCollision p plates dt fr X v = Ok v'.
  Proof.
    intros p plates dt fr X v H. unfold boundaryCollision. cbv zeta.
    assert (E : exists v', objects_loop p fr (vadd X (lscale dt v)) v = Ok v').
    { unfold objects_loop. generalize (vadd X (lscale dt v)) as Y. intros Y. revert v H. unfold obstacles_defined.
      induction (objects p) as [|o os IH]; intros v H; cbn [foldM]; [eauto|].
      destruct (H o Y (or_introl eq_refl)) as (b & -> & Hn). cbn [bind].
      assert (E1 : exists v1, (if b then collide (ob_bc o) (if use_mibf p then fr else ob_fric o) (normal (ob_shape o) Y) v else Ok v) = Ok v1).
      { destruct b; [|eauto]. destruct (Hn eq_refl) as (n & ->). apply collide_defined. }
      destruct E1 as (v1 & ->). cbn [bind]. apply IH. intros; apply H; now right. }
    destruct E as (v' & ->). cbn [bind]. eauto.
  Qed.
  Lemma euler_node_defined : forall p plates dt grav X nd, obstacles_defined p -> exists nd', euler_node p plates dt grav X nd = Ok nd'.
  Proof.
    intros p plates dt grav X nd H. unfold euler_node. cbv zeta. destruct (nltb (nofZ 0) (nd_m nd)); [|eauto].
    destruct (bc_defined p plates dt (nd_fr nd) X (vadd (nd_v nd) (vadd (vdivs (lscale (nopp (nmul dt (particle_volume p))) (nd_f nd)) (nd_m nd)) (lscale dt grav))) H) as (v' & ->).
    cbn [bind]. eauto.
  Qed.
  Lemma strain_defined : forall p dt vg q, material_defined svd uabs p -> exists r, strain_particle (plast svd uabs) p dt vg q = Ok r.
  Proof.
    intros p dt vg q H. unfold strain_particle. destruct (H dt (F_trial dt vg (q_F q)) (q_tau q) (q_h q)) as (o & E). unfold plast. rewrite E. cbn [bind]. eauto.
  Qed.
  Lemma mapM_exists' : forall X Y (f : X -> res Y) l, (forall x, In x l -> exists y, f x = Ok y) -> exists ys, mapM f l = Ok ys.
  Proof.
    intros X Y f l K. induction l as [|q l IH]; [exists []; reflexivity|]. destruct (K q (or_introl eq_refl)) as (r & Er).
    destruct IH as (rs & Ers); [intros; apply K; now right|]. exists (r :: rs). cbn. now rewrite Er, Ers.
  Qed.
  Lemma ploop_pack : forall body sched l rs, Permutation sched (seq 0 (length l)) -> mapM body l = Ok rs -> ploop body sched (pack l) = Ok (results rs).
  Proof. intros. apply ploop_Ok; eauto. Qed.
  Theorem step_safe : forall af p sc s0 n s1 s2, 0 < dx p -> valid_sched sc -> well_formed s0 n -> obstacles_defined p -> material_defined svd uabs p ->
    (use_pbc p = true -> use_mibf p = false) ->
    updateDt p s0 = Ok s1 -> remesh af p s1 = Ok s2 -> GridOk p (s_axes s2) ->
    (forall x, In x (p_x (s_p s0)) -> in_grid p (s_axes s2) x) ->
    (use_pbc p = true -> forall x x', In x (p_x (s_p s0)) -> pbc_image p 4 x = Some x' -> in_grid p (s_axes s2) x') ->
    exists s', advanceStep svd uabs af p sc s0 = Ok s'.
  Proof.
    intros af p sc s0 n s1 s2 Hdx V WF Ob Ma Pm U Rm GO IG IGg.
    destruct (wf_pack _ _ WF) as (l & Ll & E0 & N0 & F0). pose proof (grid_len p sc l V) as F1.
    unfold advanceStep. cbv zeta. rewrite U. cbn [bind]. rewrite Rm. cbn [bind].
    assert (K : s_p s2 = s_p s0 /\ s_Np s2 = s_Np s0).
    { unfold updateDt in U. invb. unfold remesh in Rm. destruct (use_pbc p); match type of Rm with context [(?a =? ?b)%Z] => destruct (a =? b)%Z end; invb; auto. }
    destruct K as (Kp & Kn). rewrite E0 in Kp, IG, IGg. rewrite N0 in Kn.
    destruct (pbc_before_spec p sc s2 l V Kp Kn) as (m & nadd & Eb & B0 & B1). rewrite Eb. cbn [bind].
    unfold npn. cbn [s_axes s_p with_pn s_Np].
    assert (Np3 : Z.to_nat m = length (p_x (grid_particles p sc l))).
    { destruct (use_pbc p) eqn:Pb.
      - destruct (B1 eq_refl) as (-> & _). rewrite wrapu_small by lia. apply Nat2Z.id.
      - destruct (B0 eq_refl) as (-> & _). rewrite Kn, Nat2Z.id. unfold grid_particles. rewrite Pb. cbn. now rewrite map_length. }
    assert (GP : forall x, In x (p_x (grid_particles p sc l)) -> in_grid p (s_axes s2) x).
    { intros x Hx. unfold grid_particles in Hx. destruct (use_pbc p) eqn:Pb; [|auto]. cbn [ext p_x] in Hx. apply in_app_or in Hx. destruct Hx as [Hx|Hx]; [auto|].
      apply in_map_iff in Hx. destruct Hx as (g & <- & Hg). apply (ghosts_In p 4 l _ _ (vs_pbc _ V (length l))) in Hg.
      destruct Hg as (q & Hq & x' & Ei & ->). cbn [q_x set_x]. eapply IGg; eauto. cbn. apply in_map; auto. }
    destruct (p2g_run_gen p Hdx (s_axes s2) (grid_particles p sc l) _ (sc_p2g sc (length (p_x (grid_particles p sc l)))) GO
                (grid_readable p sc l Pm) GP (vs_p2g _ V _)) as (ds & nd0 & _ & _ & _ & _ & _ & _ & _ & _ & Ep & (La & _)).
    rewrite Np3. rewrite Ep. cbn [bind]. set (g1 := map (p2g_finish_node p) nd0).
    assert (L1 : Z.of_nat (length g1) = prodlen (s_axes s2)) by (unfold g1; rewrite map_length, La; apply (resize_length p); auto).
    match goal with |- context [euler p ?a ?b ?c ?d ?e g1] => destruct (euler_exists p a b c d e g1 GO (vs_euler _ V _) L1) as (g2 & Eg2) end.
    { intros. now apply euler_node_defined. }
    cbn [s_plates s_dt s_grav with_pn] in *. rewrite Eg2. cbn [bind].
    assert (L2 : Z.of_nat (length g2) = prodlen (s_axes s2)).
    { destruct (euler_spec _ _ _ _ _ _ _ _ GO (vs_euler _ V _) L1 Eg2) as (L & _). lia. }
    rewrite (pbc_after_spec p sc s2 l m nadd g2 Kp Kn ltac:(lia) B0 (fun K => proj2 (B1 K))). cbn [bind].
    cbn [with_pn with_nodes with_p with_exit with_plates s_axes s_nodes s_dt s_Np s_p]. rewrite Nat2Z.id.
    assert (Cv : forall q, In q l -> Covered p (s_axes s2) (q_x q)).
    { intros q Hq. apply in_grid_covered; auto. apply IG. cbn. apply in_map; auto. }
    assert (E1 : exists rs, mapM (g2p_particle (plast svd uabs) p (s_axes s2) g2 (s_dt s2)) l = Ok rs /\ forall r, In r rs -> exists q, In q l /\ q_x (fst r) = q_x q).
    { destruct (mapM_exists' _ _ (g2p_particle (plast svd uabs) p (s_axes s2) g2 (s_dt s2)) l) as (rs & Er).
      - intros q Hq. destruct (g2p_eq p Hdx (s_axes s2) g2 (q_x q) GO L2 (Cv q Hq) (plast svd uabs) (s_dt s2) q eq_refl) as (pic & vg & B & fl & _ & _ & ->).
        cbv zeta. destruct (use_musl p); [eauto|]. now apply strain_defined.
      - exists rs. split; auto. intros r Hr. destruct (mapM_In _ _ _ _ Er Hr) as (q & Hq & Eq). exists q. split; auto.
        destruct (g2p_eq p Hdx (s_axes s2) g2 (q_x q) GO L2 (Cv q Hq) (plast svd uabs) (s_dt s2) q eq_refl) as (pic & vg & B & fl & _ & _ & E').
        rewrite E' in Eq. cbv zeta in Eq. destruct (use_musl p); [invb; auto|]. now apply strain_x in Eq. }
    destruct E1 as (rs & Ers & Xrs). assert (Lrs : length rs = length l) by (eapply mapM_length; eauto).
    unfold g2p. rewrite (ploop_pack _ _ _ _ (vs_g2p _ V _) Ers). cbn [bind]. unfold results. cbn [fst snd].
    unfold musl_part. destruct (use_musl p) eqn:Mu.
    - cbn [with_pn with_nodes with_p with_exit with_plates s_axes s_nodes s_dt s_Np s_p fst snd]. unfold npn. cbn [s_Np with_exit with_p with_pn]. rewrite Nat2Z.id.
      unfold musl_velocities. pose proof (vs_musl1 _ V (length l)) as Pv. rewrite <- Lrs in Pv at 2. rewrite <- (map_length fst rs) in Pv.
      rewrite (ploop_pack _ _ _ (map (fun q => (set_v q (new_velocity p q), (false, 0%nat))) (map fst rs)) Pv) by (apply mapM_total; auto). cbn [bind]. unfold results. cbn [fst snd].
      rewrite !map_map. cbn [fst]. change (fun x => set_v (fst x) (new_velocity p (fst x))) with (fun x : P1 R * Flags => blend_of p (fst x)).
      set (l2 := map (fun r => blend_of p (fst r)) rs). assert (Ll2 : length l2 = length l) by (unfold l2; now rewrite map_length).
      assert (Cv2 : forall q, In q l2 -> Covered p (s_axes s2) (q_x q) /\ in_grid p (s_axes s2) (q_x q)).
      { intros q Hq. unfold l2 in Hq. apply in_map_iff in Hq. destruct Hq as (r & <- & Hr). destruct (Xrs r Hr) as (q0 & H0 & Ex). cbn [blend_of set_v q_x]. rewrite Ex. split; auto.
        apply IG. cbn. apply in_map; auto. }
      destruct (musl_run p Hdx (s_axes s2) (pack l2) (length l) (sc_musl sc (length l)) g2 GO) as (ds3 & g3 & _ & _ & _ & _ & _ & Eg3 & L3 & _);
        [now cbn; rewrite map_length|now cbn; rewrite map_length|intros; now cbn; rewrite map_length| |apply vs_musl; auto|auto|].
      { cbn. intros x Hx. apply in_map_iff in Hx. destruct Hx as (q & <- & Hq). now apply Cv2. }
      rewrite Eg3. cbn [bind].
      assert (E3 : exists rs3, mapM (def_particle (plast svd uabs) p (s_axes s2) g3 (s_dt s2)) l2 = Ok rs3).
      { apply mapM_exists'. intros q Hq. destruct (def_eq p Hdx (s_axes s2) g3 (q_x q) GO ltac:(lia) (proj1 (Cv2 q Hq)) (plast svd uabs) (s_dt s2) q eq_refl) as (vg & _ & ->).
        now apply strain_defined. }
      destruct E3 as (rs3 & Ers3). unfold deformationUpdate.
      pose proof (vs_def _ V (length l)) as Pd. rewrite <- Ll2 in Pd at 2. rewrite (ploop_pack _ _ _ _ Pd Ers3). cbn [bind]. unfold results. cbn [fst snd].
      cbn [with_pn with_nodes with_p with_exit with_plates s_axes s_nodes s_dt s_Np s_p fst snd]. rewrite Nat2Z.id. unfold positionUpdate.
      pose proof (vs_pos _ V (length l)) as Pp. replace (seq 0 (length l)) with (seq 0 (length (map fst rs3))) in Pp by (rewrite map_length; apply mapM_length in Ers3; now rewrite Ers3, Ll2).
      rewrite (ploop_pack _ _ _ (map (fun q => (move_of p (s_dt s2) q, (false, 0%nat))) (map fst rs3)) Pp).
      2:{ apply mapM_total. intros x _. unfold pos_particle, move_of. now rewrite Mu. }
      cbn [bind]. eauto.
    - cbn [bind]. cbn [with_pn with_nodes with_p with_exit with_plates s_axes s_nodes s_dt s_Np s_p fst snd]. rewrite Nat2Z.id. unfold positionUpdate.
      pose proof (vs_pos _ V (length l)) as Pp. rewrite <- Lrs in Pp at 2. rewrite <- (map_length fst rs) in Pp.
      rewrite (ploop_pack _ _ _ (map (fun q => (move_of p (s_dt s2) q, (false, 0%nat))) (map fst rs)) Pp).
      2:{ apply mapM_total. intros x _. unfold pos_particle, move_of. now rewrite Mu. }
      cbn [bind]. eauto.
  Qed.
End StepP.

(** ** The first step of a run without periodic boundaries always succeeds *)
Section First.
  Context {G : Geo R} {GL : GeoLaws G}.
  Variable svd : TM -> TM * TV * TM.
  Variable uabs : R -> R.
  Lemma init_axis_size : forall af p xs k a m, 0 < dx p -> remeshInit_axis af p 2 xs k = Ok (a, m) ->
    (forall x, In x xs -> Rabs (vget x k) <= 100 * dx p) ->
    (vget (grid_ref p) 0 < 10000000000 -> Rabs (vget (grid_ref p) k) <= 100 * dx p) -> (Z.of_nat (lat_n a) <= 206)%Z.
  Proof.
    intros af p xs k a m Hdx H B Br. pose proof H as H'. apply remeshInit_axis_spec in H; auto. destruct H as ((In1 & Le & Lo & Hi) & Lat & C & _ & Up).
    assert (mm : ma_max m - ma_min m <= 200 * dx p).
    { unfold remeshInit_axis in H'. apply bind_Ok in H'. destruct H' as (x & E & H'). apply bind_Ok in H'. destruct H' as (x0 & E0 & H').
      assert (S1 : forall (l : list R) y, max_elem l = Ok y -> In y l).
      { intros l y Q. unfold max_elem in Q. destruct l; [discriminate|]. injection Q as <-. clear. revert r. induction l as [|a0 l IH]; intros r0; cbn [fold_left]; [now left|].
        destruct (Rltb r0 a0); [destruct (IH a0) as [Q|Q]; [right; left; exact Q|right; right; exact Q]|destruct (IH r0) as [Q|Q]; [left; exact Q|right; right; exact Q]]. }
      assert (S2 : forall (l : list R) y, min_elem l = Ok y -> In y l).
      { intros l y Q. unfold min_elem in Q. destruct l; [discriminate|]. injection Q as <-. clear. revert r. induction l as [|a0 l IH]; intros r0; cbn [fold_left]; [now left|].
        destruct (Rltb a0 r0); [destruct (IH a0) as [Q|Q]; [right; left; exact Q|right; right; exact Q]|destruct (IH r0) as [Q|Q]; [left; exact Q|right; right; exact Q]]. }
      apply S1 in E. apply S2 in E0. apply in_map_iff in E, E0. destruct E as (u & <- & Hu), E0 as (w & <- & Hw).
      pose proof (B u Hu) as Bu. pose proof (B w Hw) as Bw. destruct (ref_adjust p k (vget w k) (vget u k)) as [mn mx] eqn:Rf.
      apply bind_Ok in H'. destruct H' as (ax & _ & H'). injection H' as <- <-. cbn [ma_max ma_min].
      unfold ref_adjust in Rf. rewrite nofZ_R in Rf. numR. apply Rabs_le_iv in Bu, Bw.
      destruct (Rltb_spec (vget (grid_ref p) 0) 10000000000) as [Q|Q].
      - specialize (Br Q). apply Rabs_le_iv in Br. destruct (Rltb_spec (vget (grid_ref p) k) (vget w k)).
        + injection Rf as <- <-. lra.
        + destruct (Rltb_spec (vget u k) (vget (grid_ref p) k)); injection Rf as <- <-; lra.
      - injection Rf as <- <-. lra. }
    assert (INR (lat_n a) < 206 + 1).
    { apply Rmult_lt_reg_r with (dx p); auto. nra. }
    rewrite INR_IZR_INZ in H. apply Z.lt_succ_r. apply lt_IZR. rewrite succ_IZR. lra.
  Qed.
  Theorem first_step : forall p sc s0 n, 0 < dx p -> use_pbc p = false -> valid_sched sc -> well_formed s0 n -> (0 < n)%nat -> s_step s0 = 0%Z ->
    obstacles_defined p -> material_defined svd uabs p ->
    (forall x k, In x (p_x (s_p s0)) -> (k < dim)%nat -> Rabs (vget x k) <= 100 * dx p) ->
    (forall k, (k < dim)%nat -> vget (grid_ref p) 0 < 10000000000 -> Rabs (vget (grid_ref p) k) <= 100 * dx p) ->
    exists af0, forall af, (af0 <= af)%nat -> exists s1, advanceStep svd uabs af p sc s0 = Ok s1 /\ GridOk p (s_axes s1) /\
      (forall x, In x (p_x (s_p s0)) -> in_grid p (s_axes s1) x).
  Proof.
    intros p sc s0 n Hdx Pb V WF Hn S0 Ob Ma B Br.
    destruct (wf_pack _ _ WF) as (l & Ll & E0 & N0 & F0).
    assert (Ne : p_x (s_p s0) <> []) by (rewrite E0; destruct l; [cbn in Ll; lia|discriminate]).
    destruct (init_terminates p Hdx (p_x (s_p s0)) Ne) as (af0 & T). exists af0. intros af Haf. destruct (T af Haf) as (am & Ea).
    assert (Us : exists s', updateDt p s0 = Ok s' /\ s_step s' = s_step s0 /\ s_p s' = s_p s0).
    { unfold updateDt. destruct (p_v (s_p s0)) as [|v vs] eqn:Ev; [rewrite E0 in Ev; destruct l; [cbn in Ll; lia|discriminate]|]. unfold max_speed. cbn [bind]. eexists. split; [reflexivity|]. split; reflexivity. }
    destruct Us as (s' & U & Us & Up).
    assert (Rm : remesh af p s' = Ok (with_grid s' (map fst am) (map snd am))).
    { unfold remesh. rewrite Pb, Us, S0, Up, Ea. reflexivity. }
    assert (GO : GridOk p (map fst am)).
    { apply init_grid_ok with af (p_x (s_p s0)); auto.
      assert (Sz : forall a, In a (map fst am) -> (0 <= Z.of_nat (length (ax_co a)) <= 206)%Z).
      { intros a Ha. apply in_map_iff in Ha. destruct Ha as ((a', m) & <- & Hin). cbn [fst]. apply In_nth_error in Hin. destruct Hin as (k & Ek).
        pose proof (mapM_seq_nth _ _ _ _ _ _ Ea Ek) as K. split; [lia|].
        assert (Hk : (k < dim)%nat) by (unfold remeshFixedInit in Ea; apply mapM_length in Ea; rewrite seq_length in Ea; rewrite <- Ea; apply nth_error_Some; congruence).
        apply (init_axis_size af p (p_x (s_p s0)) k a' m Hdx K); auto. }
      assert (La : length (map fst am) = dim) by (rewrite map_length; unfold remeshFixedInit in Ea; apply mapM_length in Ea; now rewrite seq_length in Ea).
      destruct (axes_cases _ La) as [(_ & ax & ay & Q)|(_ & ax & ay & az & Q)]; rewrite Q in *; unfold prodlen; cbn [fold_right].
      - pose proof (Sz ax (or_introl eq_refl)). pose proof (Sz ay (or_intror (or_introl eq_refl))). nia.
      - pose proof (Sz ax (or_introl eq_refl)). pose proof (Sz ay (or_intror (or_introl eq_refl))). pose proof (Sz az (or_intror (or_intror (or_introl eq_refl)))).
        assert (M : forall a b, (0 <= a <= 206 -> 0 <= b <= 42436 -> 0 <= a * b <= 8741816)%Z) by (intros; nia).
        assert (M2 : forall a b, (0 <= a <= 206 -> 0 <= b <= 206 -> 0 <= a * (b * 1) <= 42436)%Z) by (intros; nia).
        eapply Z.le_trans; [apply M; [auto|apply M2; auto]|lia]. }
    assert (IG : forall x, In x (p_x (s_p s0)) -> in_grid p (map fst am) x).
    { intros x Hx. apply in_grid_covered; auto. eapply init_covers; eauto. }
    destruct (step_safe svd uabs af p sc s0 n s' (with_grid s' (map fst am) (map snd am)) Hdx V WF Ob Ma) as (s1 & E1); auto; [congruence|congruence|].
    exists s1. split; auto.
    destruct (step_run svd uabs af p sc s0 s1 l V E0 N0 F0 E1) as [[axes ms g1 g2 rs (sx & Er & Ax & _) Rd _ _ _ _ Sx _ _ _]].
    rewrite Rd in U. injection U as <-. rewrite Rm in Er. injection Er as <-. cbn [with_grid s_axes] in Ax. rewrite Sx, <- Ax. auto.
  Qed.
  Lemma no_obstacles : forall p, objects p = [] -> obstacles_defined p.
  Proof. intros p H o X Ho. rewrite H in Ho. destruct Ho. Qed.
  Lemma no_plasticity : forall p, plastic_model p = NoPlasticity -> material_defined svd uabs p.
  Proof.
    intros p H dt F tau h. unfold plasticity. destruct (svd F) as [[U s] W]. cbv zeta. unfold return_map. rewrite H. cbn [bind]. eauto.
  Qed.
End First.
