(** * OrderProofs: a step does not depend on the schedule, and moves along with the order of the particles. *)
From Coq Require Import Reals ZArith Lra Lia List Bool Permutation.
From Verif Require Import Num NumR Tools Lin Types Remesh Objects Transfer Rma Plastic Pbc Step Spec SpecStep SpecOrder LinProofs ResProofs
  KernelProofs GridProofs StencilProofs IndexProofs AccumProofs GradProofs P2GProofs ConsProofs MuslProofs PloopProofs PbcProofs StepProofs TimeProofs PlasticModels.
Import ListNotations.
Local Open Scope R_scope.

Section Lists.
  Context {X Y : Type}.
  Lemma reorder_map : forall (f : X -> Y) pi l, reorder pi (map f l) = map f (reorder pi l).
  Proof.
    intros f pi l. unfold reorder. induction pi as [|i pi IH]; auto. cbn [flat_map]. rewrite map_app, IH. f_equal. rewrite nth_error_map. now destruct (nth_error l i).
  Qed.
  Lemma reorder_seq : forall l : list X, reorder (seq 0 (length l)) l = l.
  Proof.
    intros l. unfold reorder. induction l as [|x l IH]; auto. cbn [length seq flat_map nth_error app]. f_equal. rewrite <- seq_shift, flat_map_concat_map, map_map, <- flat_map_concat_map. exact IH.
  Qed.
  Lemma reorder_perm : forall pi (l : list X), Permutation pi (seq 0 (length l)) -> Permutation (reorder pi l) l.
  Proof. intros pi l H. etransitivity; [apply (Permutation_flat_map _ H)|]. fold (reorder (seq 0 (length l)) l). now rewrite reorder_seq. Qed.
  Lemma reorder_length : forall pi (l : list X), Permutation pi (seq 0 (length l)) -> length (reorder pi l) = length l.
  Proof. intros. now apply Permutation_length, reorder_perm. Qed.
  Lemma reorder_mapM : forall (f : X -> res Y) pi l rs, (forall i, In i pi -> (i < length l)%nat) -> mapM f l = Ok rs -> mapM f (reorder pi l) = Ok (reorder pi rs).
  Proof.
    intros f pi l rs H M. apply mapM_Ok in M. unfold reorder. induction pi as [|i pi IH]; auto. cbn [flat_map].
    destruct (nth_error l i) as [x|] eqn:E; [|apply nth_error_None in E; specialize (H i (or_introl eq_refl)); lia].
    destruct (Forall2_nth_error _ _ _ _ _ M i x E) as (y & Ey & Fy). rewrite Ey. cbn [app mapM]. rewrite Fy. cbn [bind].
    rewrite IH by (intros; apply H; now right). reflexivity.
  Qed.
End Lists.
Lemma perm_lt : forall pi n i, Permutation pi (seq 0 n) -> In i pi -> (i < n)%nat.
Proof. intros pi n i H K. apply (Permutation_in _ H), in_seq in K. lia. Qed.

(** ** Sums over the particles *)
Section Totals.
  Variables (Nd I K : Type) (val : I -> Nd -> R) (keep : Nd -> K) (plus : Nd -> Nd -> Nd) (zero : Nd).
  Hypothesis AL : AddLaws Nd I K val keep plus zero.
  Lemma mapM_id : forall X Y (f : X -> res Y) l, mapM f l = mapM (fun r => r) (map f l).
  Proof. intros X Y f l. induction l; cbn; auto. now rewrite IHl. Qed.
  Lemma total_views : forall (o1 o2 : nat -> res (list (Z * Nd))) is1 is2 g, Permutation (map o1 is1) (map o2 is2) ->
    (forall g', total _ plus o1 is1 g = Ok g' -> total _ plus o2 is2 g = Ok g').
  Proof.
    intros o1 o2 is1 is2 g P g' H. unfold total in *. rewrite mapM_id in *. invb. destruct (mapM_perm _ _ _ _ _ _ P E) as (ys & E' & P').
    rewrite E'. simpl. rewrite <- H. symmetry. apply (adds_perm _ _ _ _ _ _ _ AL), perm_concat; auto.
  Qed.
End Totals.

(** ** The grid loop *)
Section Ifold.
  Context {X : Type}.
  Variable f : nat -> X -> res X.
  Lemma ifold_any : forall s1 s2 n g g', Permutation s1 (seq 0 n) -> Permutation s2 (seq 0 n) -> length g = n -> foldM (istep f) s1 g = Ok g' -> foldM (istep f) s2 g = Ok g'.
  Proof.
    intros s1 s2 n g g' P1 P2 L H. destruct (ifold_perm f s1 n g g' P1 L H) as (L1 & A).
    destruct (ifold_bwd f s2 g) as (g2 & E).
    - apply (perm_seq _ _ P2).
    - intros k Hk. apply (perm_seq _ _ P2) in Hk. destruct (nth_error g k) as [x|] eqn:Ex; [|apply nth_error_None in Ex; lia].
      destruct (A k x Ex) as (y & Ey & _). eauto.
    - rewrite E. f_equal. destruct (ifold_perm f s2 n g g2 P2 L E) as (L2 & B). apply nth_error_ext. intros k.
      destruct (nth_error g k) as [x|] eqn:Ex.
      + destruct (A k x Ex) as (y & Ey & ->), (B k x Ex) as (y' & Ey' & ->). congruence.
      + apply nth_error_None in Ex. transitivity (@None X); [|symmetry]; apply nth_error_None; lia.
  Qed.
End Ifold.

Section OrderP.
  Context {G : Geo R} {GL : GeoLaws G}.
  Variable svd : TM -> TM * TV * TM.
  Variable uabs : R -> R.

  Lemma euler_any : forall p plates dt grav axes s1 s2 nodes g, GridOk p axes -> Permutation s1 (seq 0 (Z.to_nat (grid_nodes axes))) -> Permutation s2 (seq 0 (Z.to_nat (grid_nodes axes))) ->
    Z.of_nat (length nodes) = prodlen axes -> euler p plates dt grav axes s1 nodes = Ok g -> euler p plates dt grav axes s2 nodes = Ok g.
  Proof.
    intros p plates dt grav axes s1 s2 nodes g GO P1 P2 L H. rewrite (grid_nodes_val p axes GO) in *.
    rewrite euler_iloop in H by (auto; intros k Hk; apply (perm_seq _ _ P1); auto). rewrite euler_iloop by (auto; intros k Hk; apply (perm_seq _ _ P2); auto).
    apply (ifold_any _ s1 s2 (Z.to_nat (prodlen axes)) nodes g P1 P2); [lia|exact H].
  Qed.

  (** Contribution of one particle, and of one ghost, which has no history. *)
  Definition one_d (p : Par R) (q : P1 R) : PD :=
    mkPD (q_x q) (q_v q) (if (flip_ratio p <? nofZ 0)%num then q_B q else mzero) (q_tau q) (if use_mibf p then h_muI (q_h q) else nofZ 0).
  Definition ops_d (p : Par R) (axes : list (Axis R)) (d : PD) : res (list (Z * Node R)) := items <- stencil base_p2g p axes (d_x d) ;; Ok (dops p d items).
  Definition ops_ghost (p : Par R) (axes : list (Axis R)) (q : P1 R) : res (list (Z * Node R)) := if use_mibf p then UB else ops_d p axes (one_d p q).
  Lemma rd_app2 : forall X (f : P1 R -> X) l gs j q, nth_error gs j = Some q -> rd (map f l ++ map f gs) (Z.of_nat (length l + j)) = Ok (f q).
  Proof.
    intros X f l gs j q E. rewrite rd_nat, nth_error_app2 by (rewrite map_length; lia). rewrite map_length. replace (length l + j - length l)%nat with j by lia.
    rewrite nth_error_map, E. reflexivity.
  Qed.
  Lemma opsf_ext : forall p axes l gs, map (opsf p axes (ext l gs)) (seq 0 (length l + length gs)) = map (fun q => ops_d p axes (one_d p q)) l ++ map (ops_ghost p axes) gs.
  Proof.
    intros p axes l gs. rewrite seq_app, map_app. f_equal.
    - apply seq_map_nth. intros i q E. unfold opsf, getd, ops_d, one_d, ext. cbv zeta. cbn [p_x p_v p_tau p_B p_hist].
      rewrite (rd_app _ q_x l gs i q E), (rd_app _ q_tau l gs i q E), (rd_app _ q_v l gs i q E), (rd_app _ q_B l gs i q E), rd_map, E. cbn [bind].
      destruct (flip_ratio p <? nofZ 0)%num, (use_mibf p); reflexivity.
    - rewrite Nat.add_0_l. replace (seq (length l) (length gs)) with (map (fun j => (length l + j)%nat) (seq 0 (length gs))).
      2:{ clear. generalize (length gs) as n. intros n. transitivity (seq (length l + 0) n); [|now rewrite Nat.add_0_r]. generalize 0%nat as k. induction n; intros k; cbn; auto. f_equal. rewrite IHn. now rewrite Nat.add_succ_r. }
      rewrite map_map. apply seq_map_nth. intros j q E. unfold opsf, getd, ops_ghost, ops_d, one_d, ext. cbv zeta. cbn [p_x p_v p_tau p_B p_hist].
      rewrite (rd_app2 _ q_x l gs j q E), (rd_app2 _ q_tau l gs j q E), (rd_app2 _ q_v l gs j q E), (rd_app2 _ q_B l gs j q E), rd_map.
      assert (nth_error l (length l + j) = None) as -> by (apply nth_error_None; lia). cbn [bind].
      destruct (flip_ratio p <? nofZ 0)%num, (use_mibf p); reflexivity.
  Qed.
  Lemma ghosts_reorder : forall p sf l sched, ghosts p sf l sched = flat_map (ghost p sf) (reorder sched l).
  Proof.
    intros p sf l sched. unfold ghosts, reorder. induction sched as [|i sched IH]; auto. cbn [flat_map]. rewrite flat_map_app, <- IH. f_equal. destruct (nth_error l i); cbn; auto. now rewrite app_nil_r.
  Qed.
  Lemma ghosts_any : forall p sf l l' s s', Permutation l l' -> Permutation s (seq 0 (length l)) -> Permutation s' (seq 0 (length l')) -> Permutation (ghosts p sf l s) (ghosts p sf l' s').
  Proof. intros p sf l l' s s' Pl Ps Ps'. rewrite !ghosts_reorder. apply Permutation_flat_map. rewrite (reorder_perm s l Ps), (reorder_perm s' l' Ps'). exact Pl. Qed.
  Lemma grid_ext : forall p sc l, exists gs, grid_particles p sc l = ext l gs /\ gs = if use_pbc p then ghosts p 4 l (sc_pbc sc (length l)) else [].
  Proof. intros p sc l. unfold grid_particles. eexists. split; [|reflexivity]. destruct (use_pbc p); auto. now rewrite ext_nil. Qed.
  Lemma ext_len : forall (l gs : list (P1 R)), length (p_x (ext l gs)) = (length l + length gs)%nat.
  Proof. intros. cbn [ext p_x]. now rewrite app_length, !map_length. Qed.
  Lemma p2g_any : forall p axes sc sc' l l' g0 g, valid_sched sc -> valid_sched sc' -> Permutation l l' ->
    p2g p axes (grid_particles p sc l) (sc_p2g sc (length (p_x (grid_particles p sc l)))) g0 = Ok g ->
    p2g p axes (grid_particles p sc' l') (sc_p2g sc' (length (p_x (grid_particles p sc' l')))) g0 = Ok g.
  Proof.
    intros p axes sc sc' l l' g0 g V V' Pl H. destruct (grid_ext p sc l) as (gs & E & Eg), (grid_ext p sc' l') as (gs' & E' & Eg'). rewrite E, ext_len in H. rewrite E', ext_len.
    assert (Pg : Permutation gs gs'). { subst gs gs'. destruct (use_pbc p); auto. apply ghosts_any; auto; apply vs_pbc; auto. }
    unfold p2g in *. rewrite accumulate_total in *.
    rewrite (total_perm _ _ _ (nval p) (nkeep p) (node_add p) zero_node (node_add_laws p) (opsf p axes (ext l gs)) (opsf_nf p axes (ext l gs)) _ _ g0 (vs_p2g _ V _)) in H.
    rewrite (total_perm _ _ _ (nval p) (nkeep p) (node_add p) zero_node (node_add_laws p) (opsf p axes (ext l' gs')) (opsf_nf p axes (ext l' gs')) _ _ g0 (vs_p2g _ V' _)).
    apply bind_Ok in H. destruct H as (nodes' & En & H). assert (Pm : Permutation (map (opsf p axes (ext l gs)) (seq 0 (length l + length gs))) (map (opsf p axes (ext l' gs')) (seq 0 (length l' + length gs')))) by (rewrite !opsf_ext; apply Permutation_app; now apply Permutation_map).
    rewrite (total_views _ _ _ (nval p) (nkeep p) (node_add p) zero_node (node_add_laws p) _ _ _ _ g0 Pm nodes' En). exact H.
  Qed.
  Definition one_m (p : Par R) (q : P1 R) : PD := mkPD (q_x q) (q_v q) (if (flip_ratio p <? nofZ 0)%num then q_B q else mzero) mzero 0.
  Lemma mopsf_pack : forall p axes l, map (mopsf p axes (pack l)) (seq 0 (length l)) = map (fun q => items <- stencil base_p2g p axes (q_x q) ;; Ok (mops p (one_m p q) items)) l.
  Proof.
    intros p axes l. apply seq_map_nth. intros i q E. unfold mopsf, getm, one_m, pack. cbv zeta. cbn [p_x p_v p_B]. rewrite !rd_map, E. cbn [bind].
    destruct (flip_ratio p <? nofZ 0)%num; reflexivity.
  Qed.
  Lemma musl_any : forall p axes s s' l l' g0 g, thread_schedule s (length l) -> thread_schedule s' (length l') -> Permutation l l' ->
    musl_grid p axes (pack l) s g0 = Ok g -> musl_grid p axes (pack l') s' g0 = Ok g.
  Proof.
    intros p axes s s' l l' g0 g V V' Pl H. rewrite musl_total in *.
    rewrite (total_perm _ _ _ mval mkeep mplus zero_node mplus_laws (mopsf p axes (pack l)) (mopsf_nf p axes (pack l)) _ _ _ V) in H.
    rewrite (total_perm _ _ _ mval mkeep mplus zero_node mplus_laws (mopsf p axes (pack l')) (mopsf_nf p axes (pack l')) _ _ _ V').
    apply bind_Ok in H. destruct H as (g1 & En & H). assert (Pm : Permutation (map (mopsf p axes (pack l)) (seq 0 (length l))) (map (mopsf p axes (pack l')) (seq 0 (length l')))) by (rewrite !mopsf_pack; now apply Permutation_map).
    rewrite (total_views _ _ _ mval mkeep mplus zero_node mplus_laws _ _ _ _ _ Pm g1 En). exact H.
  Qed.

  (** ** Extremes *)
  Lemma max_elem_any : forall xs ys m, Permutation xs ys -> max_elem (A := R) xs = Ok m -> max_elem ys = Ok m.
  Proof.
    intros xs ys m P H. destruct (max_elem_spec xs m H) as (I & M).
    destruct (max_elem_ex ys) as (m' & E); [intros ->; apply Permutation_sym, Permutation_nil in P; subst xs; discriminate|]. rewrite E. f_equal.
    destruct (max_elem_spec ys m' E) as (I' & M'). apply Rle_antisym; [apply M, (Permutation_in _ (Permutation_sym P)), I'|apply M', (Permutation_in _ P), I].
  Qed.
  Lemma min_elem_any : forall xs ys m, Permutation xs ys -> min_elem (A := R) xs = Ok m -> min_elem ys = Ok m.
  Proof.
    intros xs ys m P H. destruct (min_elem_spec xs m H) as (I & M).
    destruct (min_elem_ex ys) as (m' & E); [intros ->; apply Permutation_sym, Permutation_nil in P; subst xs; discriminate|]. rewrite E. f_equal.
    destruct (min_elem_spec ys m' E) as (I' & M'). apply Rle_antisym; [apply M', (Permutation_in _ P), I|apply M, (Permutation_in _ (Permutation_sym P)), I'].
  Qed.
  Lemma max_speed_any : forall xs ys m, Permutation xs ys -> max_speed (A := R) xs = Ok m -> max_speed ys = Ok m.
  Proof.
    intros xs ys m P H. destruct (max_speed_spec xs m H) as (_ & (v & I & Ev) & M).
    destruct (max_speed_ex ys) as (m' & E); [intros ->; apply Permutation_sym, Permutation_nil in P; subst xs; discriminate|]. rewrite E. f_equal.
    destruct (max_speed_spec ys m' E) as (_ & (v' & I' & Ev') & M'). apply Rle_antisym; [rewrite Ev'; apply M, (Permutation_in _ (Permutation_sym P)), I'|rewrite Ev; apply M', (Permutation_in _ P), I].
  Qed.
  Lemma mapM_imp : forall X Y (f g : X -> res Y) l r, (forall x y, f x = Ok y -> g x = Ok y) -> mapM f l = Ok r -> mapM g l = Ok r.
  Proof.
    intros X Y f g l r K. revert r. induction l as [|x l IH]; intros r H; cbn in *; auto. apply bind_Ok in H. destruct H as (y & Ey & H). apply bind_Ok in H. destruct H as (ys & Eys & H).
    rewrite (K _ _ Ey). cbn [bind]. rewrite (IH _ Eys). exact H.
  Qed.
  Lemma remesh_any : forall af p s s' s1, Permutation (p_x (s_p s)) (p_x (s_p s')) -> s_step s' = s_step s -> s_mesh s' = s_mesh s -> s_axes s' = s_axes s ->
    remesh af p s = Ok s1 -> remesh af p s' = Ok (with_grid s' (s_axes s1) (s_mesh s1)).
  Proof.
    intros af p s s' s1 P Es Em Ea H.
    assert (Pk : forall k, Permutation (map (fun v => vget v k) (p_x (s_p s))) (map (fun v => vget v k) (p_x (s_p s')))) by (intros; now apply Permutation_map).
    unfold remesh in *. rewrite Es, Em. destruct (use_pbc p), (s_step s =? 0)%Z.
    - apply bind_Ok in H. destruct H as (ax & E & H). rewrite E. cbn [bind]. injection H as <-. reflexivity.
    - injection H as <-. rewrite <- Ea, <- Em. now destruct s'.
    - apply bind_Ok in H. destruct H as (ax & E & H). injection H as <-. unfold remeshFixedInit in *.
      enough (K0 : mapM (remeshInit_axis af p 2 (p_x (s_p s'))) (seq 0 dim) = Ok ax) by (rewrite K0; reflexivity). revert E. apply mapM_imp. intros k y. unfold remeshInit_axis. intros K.
      apply bind_Ok in K. destruct K as (mx & Ex & K). apply bind_Ok in K. destruct K as (mn & En & K). rewrite (max_elem_any _ _ _ (Pk k) Ex), (min_elem_any _ _ _ (Pk k) En). exact K.
    - apply bind_Ok in H. destruct H as (ax & E & H). injection H as <-. unfold remeshFixedCont in *.
      enough (K0 : mapM (fun mk => remeshCont_axis af p (p_x (s_p s')) (fst mk) (snd mk)) (combine (s_mesh s) (seq 0 dim)) = Ok ax) by (rewrite K0; reflexivity). revert E. apply mapM_imp. intros (ma & k) y. unfold remeshCont_axis. cbn [fst snd]. intros K.
      apply bind_Ok in K. destruct K as (mx & Ex & K). apply bind_Ok in K. destruct K as (mn & En & K). rewrite (max_elem_any _ _ _ (Pk k) Ex), (min_elem_any _ _ _ (Pk k) En). exact K.
  Qed.

  (** ** One step *)
  Definition fin (p : Par R) (s0 : St R) (dt : R) (gr : TV) (ax : list (Axis R)) (ms : list (MeshAx R)) (nadd : Z) (nodes : list (Node R)) (P : Particles R) (ex : bool) : St R :=
    mkSt P (s_Np s0) nadd ax nodes ms (s_time s0) (s_frame s0) (s_step s0) dt gr (s_gravf s0) (map (plate_move dt (frame_dt p) (s_time s0)) (s_plates s0)) ex.
  Definition stepped (af : nat) (p : Par R) (sc : Sched) (s0 : St R) (l : list (P1 R)) (s1 : St R) : Prop :=
    exists dt gr ax ms g1 g2 rs, updateDt p s0 = Ok (with_dt s0 dt gr) /\ remesh af p (with_dt s0 dt gr) = Ok (with_grid (with_dt s0 dt gr) ax ms) /\
      p2g p ax (grid_particles p sc l) (sc_p2g sc (length (p_x (grid_particles p sc l)))) (resizeGrid ax) = Ok g1 /\
      euler p (s_plates s0) dt gr ax (sc_euler sc (Z.to_nat (grid_nodes ax))) g1 = Ok g2 /\
      mapM (g2p_particle (plast svd uabs) p ax g2 dt) l = Ok rs /\
      let nadd := if use_pbc p then Z.of_nat (length (ghosts p 4 l (sc_pbc sc (length l)))) else s_nadd s0 in
      let ex := s_exit s0 || existsb (fun r => fst (snd r)) rs in
      if use_musl p then exists g3 rs3, musl_grid p ax (pack (map (fun r => blend_of p (fst r)) rs)) (sc_musl sc (length l)) g2 = Ok g3 /\
          mapM (def_particle (plast svd uabs) p ax g3 dt) (map (fun r => blend_of p (fst r)) rs) = Ok rs3 /\
          s1 = fin p s0 dt gr ax ms nadd g3 (pack (map (fun r => move_of p dt (fst r)) rs3)) (ex || existsb (fun r => fst (snd r)) rs3)
      else s1 = fin p s0 dt gr ax ms nadd g2 (pack (map (fun r => move_of p dt (fst r)) rs)) ex.

  Ltac unst := unfold npn, with_pn, with_p, with_nodes, with_grid, with_dt, with_exit, with_plates in *; cbn [s_p s_Np s_nadd s_axes s_nodes s_mesh s_time s_frame s_step s_dt s_grav s_gravf s_plates s_exit fst snd] in *.

  Theorem step_fwd : forall af p sc s0 s1 l, valid_sched sc -> s_p s0 = pack l -> s_Np s0 = Z.of_nat (length l) -> (Z.of_nat (length l) <= 2147483647)%Z ->
    advanceStep svd uabs af p sc s0 = Ok s1 -> stepped af p sc s0 l s1.
  Proof.
    intros af p sc s0 s1 l V E0 N0 F0 H. pose proof (grid_len p sc l V) as F1. unfold advanceStep in H. cbv zeta in H.
    apply bind_Ok in H. destruct H as (a1 & E1 & H). apply bind_Ok in H. destruct H as (a2 & E2 & H).
    apply bind_Ok in H. destruct H as (a3 & E3 & H). apply bind_Ok in H. destruct H as (g1 & Eg1 & H).
    apply bind_Ok in H. destruct H as (g2 & Eg2 & H). apply bind_Ok in H. destruct H as (a5 & E5 & H).
    apply bind_Ok in H. destruct H as (r & Er & H). apply bind_Ok in H. destruct H as (a7 & E7 & H).
    apply bind_Ok in H. destruct H as (q & Eq & H).
    pose proof E1 as D1. unfold updateDt in E1. apply bind_Ok in E1. destruct E1 as (sp & Esp & E1).
    remember (dt_of p sp (s_time s0) (s_frame s0)) as dt. remember (gravity_of p (s_time s0) (s_gravf s0) (s_grav s0)) as gr.
    injection E1 as <-.
    assert (X2 : exists ax ms, a2 = with_grid (with_dt s0 dt gr) ax ms).
    { unfold remesh in E2. destruct (use_pbc p); destruct (s_step (with_dt s0 dt gr) =? 0)%Z; invb; try (eexists _, _; reflexivity); exists (s_axes s0), (s_mesh s0); reflexivity. }
    destruct X2 as (ax & ms & ->).
    destruct (pbc_before_spec p sc (with_grid (with_dt s0 dt gr) ax ms) l V E0 N0) as (n & nadd & Eb & B0 & B1).
    rewrite Eb in E3. injection E3 as <-.
    rewrite (pbc_after_spec p sc (with_grid (with_dt s0 dt gr) ax ms) l n nadd g2 E0 N0 ltac:(lia) B0 (fun K => proj2 (B1 K))) in E5. injection E5 as <-.
    assert (Nadd : nadd = if use_pbc p then Z.of_nat (length (ghosts p 4 l (sc_pbc sc (length l)))) else s_nadd s0) by (destruct (use_pbc p); [apply B1|apply B0]; auto).
    exists dt, gr, ax, ms, g1, g2. cbv zeta. rewrite <- Nadd.
    unst. rewrite Nat2Z.id in Er.
    assert (Np3 : Z.to_nat n = length (p_x (grid_particles p sc l))).
    { destruct (use_pbc p) eqn:Pb.
      - destruct (B1 eq_refl) as (-> & _). rewrite wrapu_small by lia. apply Nat2Z.id.
      - destruct (B0 eq_refl) as (-> & _). rewrite N0, Nat2Z.id. unfold grid_particles. rewrite Pb. cbn. now rewrite map_length. }
    rewrite Np3 in Eg1.
    apply (ploop_Ok _ _ _ _ (vs_g2p _ V (length l))) in Er. destruct Er as (rs & Ers & ->).
    exists rs. do 5 (split; [assumption|]).
    assert (Lrs : length rs = length l) by (eapply mapM_length; eauto).
    unfold results in *. unst.
    unfold musl_part in E7. destruct (use_musl p) eqn:Mu.
    - unst. rewrite !Nat2Z.id in E7.
      apply bind_Ok in E7. destruct E7 as (rv & Erv & E7). apply bind_Ok in E7. destruct E7 as (g3 & Eg3 & E7). apply bind_Ok in E7. destruct E7 as (d & Ed & E7).
      injection E7 as <-.
      unfold musl_velocities in Erv. pose proof (vs_musl1 _ V (length l)) as Pm. rewrite <- Lrs in Pm at 2. rewrite <- (map_length fst rs) in Pm.
      apply (ploop_Ok _ _ _ _ Pm) in Erv. destruct Erv as (rv' & Erv & ->).
      rewrite (mapM_total _ (fun q => (set_v q (new_velocity p q), (false, 0%nat)))) in Erv by auto. injection Erv as <-.
      unfold results in *. cbn [fst snd] in *. rewrite !map_map in Eg3, Ed. cbn [fst] in Eg3, Ed.
      pose proof (vs_def _ V (length l)) as Pd. rewrite <- Lrs in Pd at 2. rewrite <- (map_length (fun r => blend_of p (fst r)) rs) in Pd.
      apply (ploop_Ok _ _ _ _ Pd) in Ed. destruct Ed as (rs3 & Ers3 & ->). unfold results in *.
      assert (L3 : length rs3 = length l) by (apply mapM_length in Ers3; rewrite map_length in Ers3; congruence).
      unst. rewrite !Nat2Z.id in Eq.
      pose proof (vs_pos _ V (length l)) as Pp. rewrite <- L3 in Pp at 2. rewrite <- (map_length fst rs3) in Pp.
      apply (ploop_Ok _ _ _ _ Pp) in Eq. destruct Eq as (rq & Erq & ->).
      rewrite (mapM_total _ (fun q => (move_of p dt q, (false, 0%nat)))) in Erq.
      2:{ intros x _. unfold pos_particle, move_of. now rewrite Mu. }
      injection Erq as <-. unfold results in H. cbn [fst snd] in H. rewrite !map_map in H. cbn [fst] in H. injection H as <-.
      exists g3, rs3. split; [exact Eg3|]. split; [exact Ers3|]. unfold fin. now rewrite N0.
    - injection E7 as <-. unst. rewrite !Nat2Z.id in Eq.
      pose proof (vs_pos _ V (length l)) as Pp. rewrite <- Lrs in Pp at 2. rewrite <- (map_length fst rs) in Pp.
      apply (ploop_Ok _ _ _ _ Pp) in Eq. destruct Eq as (rq & Erq & ->).
      rewrite (mapM_total _ (fun q => (move_of p dt q, (false, 0%nat)))) in Erq.
      2:{ intros x _. unfold pos_particle, move_of. now rewrite Mu. }
      injection Erq as <-. unfold results in H. cbn [fst snd] in H. rewrite !map_map in H. cbn [fst] in H. injection H as <-. unfold fin. now rewrite N0.
  Qed.
  Theorem step_bwd : forall af p sc s0 s1 l, valid_sched sc -> s_p s0 = pack l -> s_Np s0 = Z.of_nat (length l) -> (Z.of_nat (length l) <= 2147483647)%Z ->
    stepped af p sc s0 l s1 -> advanceStep svd uabs af p sc s0 = Ok s1.
  Proof.
    intros af p sc s0 s1 l V E0 N0 F0 (dt & gr & ax & ms & g1 & g2 & rs & E1 & E2 & Eg1 & Eg2 & Ers & E). pose proof (grid_len p sc l V) as F1. cbv zeta in E.
    unfold advanceStep. cbv zeta. rewrite E1. cbn [bind]. rewrite E2. cbn [bind].
    destruct (pbc_before_spec p sc (with_grid (with_dt s0 dt gr) ax ms) l V E0 N0) as (n & nadd & Eb & B0 & B1). rewrite Eb. cbn [bind].
    assert (Nadd : nadd = if use_pbc p then Z.of_nat (length (ghosts p 4 l (sc_pbc sc (length l)))) else s_nadd s0) by (destruct (use_pbc p); [apply B1|apply B0]; auto).
    assert (Np3 : Z.to_nat n = length (p_x (grid_particles p sc l))).
    { destruct (use_pbc p) eqn:Pb.
      - destruct (B1 eq_refl) as (-> & _). rewrite wrapu_small by lia. apply Nat2Z.id.
      - destruct (B0 eq_refl) as (-> & _). cbn. rewrite N0, Nat2Z.id. unfold grid_particles. rewrite Pb. cbn. now rewrite map_length. }
    change (s_axes (with_pn (with_grid (with_dt s0 dt gr) ax ms) (grid_particles p sc l) n nadd)) with ax.
    change (s_p (with_pn (with_grid (with_dt s0 dt gr) ax ms) (grid_particles p sc l) n nadd)) with (grid_particles p sc l).
    change (npn (with_pn (with_grid (with_dt s0 dt gr) ax ms) (grid_particles p sc l) n nadd)) with (Z.to_nat n). rewrite Np3, Eg1. cbn [bind].
    change (s_plates (with_pn (with_grid (with_dt s0 dt gr) ax ms) (grid_particles p sc l) n nadd)) with (s_plates s0).
    change (s_dt (with_pn (with_grid (with_dt s0 dt gr) ax ms) (grid_particles p sc l) n nadd)) with dt.
    change (s_grav (with_pn (with_grid (with_dt s0 dt gr) ax ms) (grid_particles p sc l) n nadd)) with gr. rewrite Eg2. cbn [bind].
    rewrite (pbc_after_spec p sc (with_grid (with_dt s0 dt gr) ax ms) l n nadd g2 E0 N0 ltac:(lia) B0 (fun K => proj2 (B1 K))). cbn [bind]. rewrite <- Nadd in E.
    assert (Lrs : length rs = length l) by (eapply mapM_length; eauto).
    unst. rewrite !Nat2Z.id. unfold g2p. rewrite (ploop_pack _ _ l rs (vs_g2p _ V (length l)) Ers). cbn [bind]. unfold results. unst.
    unfold musl_part. destruct (use_musl p) eqn:Mu.
    - destruct E as (g3 & rs3 & Eg3 & Ers3 & ->). unst. rewrite !Nat2Z.id. unfold musl_velocities.
      pose proof (vs_musl1 _ V (length l)) as Pm. rewrite <- Lrs in Pm at 2. rewrite <- (map_length fst rs) in Pm.
      rewrite (ploop_pack _ _ _ (map (fun q => (set_v q (new_velocity p q), (false, 0%nat))) (map fst rs)) Pm) by (apply mapM_total; auto). cbn [bind]. unfold results. cbn [fst snd].
      rewrite !map_map. cbn [fst]. change (fun x : P1 R * Flags => set_v (fst x) (new_velocity p (fst x))) with (fun r : P1 R * Flags => blend_of p (fst r)). rewrite Eg3. cbn [bind].
      pose proof (vs_def _ V (length l)) as Pd. rewrite <- Lrs in Pd at 2. rewrite <- (map_length (fun r => blend_of p (fst r)) rs) in Pd.
      unfold deformationUpdate. rewrite (ploop_pack _ _ _ rs3 Pd Ers3). cbn [bind]. unfold results. unst.
      assert (L3 : length rs3 = length l) by (apply mapM_length in Ers3; rewrite map_length in Ers3; congruence).
      pose proof (vs_pos _ V (length l)) as Pp. rewrite <- L3 in Pp at 2. rewrite <- (map_length fst rs3) in Pp. rewrite !Nat2Z.id. unfold positionUpdate.
      rewrite (ploop_pack _ _ _ (map (fun q => (move_of p dt q, (false, 0%nat))) (map fst rs3)) Pp) by (apply mapM_total; intros x _; unfold pos_particle, move_of; now rewrite Mu).
      cbn [bind]. unfold results. cbn [fst snd]. rewrite !map_map. cbn [fst]. unfold fin. now rewrite N0.
    - subst s1. cbn [bind]. unst. rewrite !Nat2Z.id.
      pose proof (vs_pos _ V (length l)) as Pp. rewrite <- Lrs in Pp at 2. rewrite <- (map_length fst rs) in Pp. unfold positionUpdate.
      rewrite (ploop_pack _ _ _ (map (fun q => (move_of p dt q, (false, 0%nat))) (map fst rs)) Pp) by (apply mapM_total; intros x _; unfold pos_particle, move_of; now rewrite Mu).
      cbn [bind]. unfold results. cbn [fst snd]. rewrite !map_map. cbn [fst]. unfold fin. now rewrite N0.
  Qed.

  Lemma total_length : forall p o is (g g' : list (Node R)), total _ (node_add p) o is g = Ok g' -> length g' = length g.
  Proof. intros p o is g g' H. unfold total in H. invb. apply (adds_Ok _ _ _ (nval p) (nkeep p) (node_add p) zero_node (node_add_laws p)) in H. apply H. Qed.
  Lemma reorder_pack : forall pi (l : list (P1 R)), reorder_particles pi (pack l) = pack (reorder pi l).
  Proof. intros. unfold reorder_particles, pack. cbn [p_x p_v p_pic p_flip p_hist p_F p_B p_tau]. now rewrite !reorder_map. Qed.
  Lemma existsb_reorder : forall X (f : X -> bool) pi l, Permutation pi (seq 0 (length l)) -> existsb f (reorder pi l) = existsb f l.
  Proof. intros. now apply existsb_perm, reorder_perm. Qed.

  Theorem step_any : forall af p sc sc' s0 s1 n pi, valid_sched sc -> valid_sched sc' -> well_formed s0 n -> Permutation pi (seq 0 n) ->
    advanceStep svd uabs af p sc s0 = Ok s1 -> GridOk p (s_axes s1) -> advanceStep svd uabs af p sc' (reorder_state pi s0) = Ok (reorder_state pi s1).
  Proof.
    intros af p sc sc' s0 s1 n pi V V' W Pi H GO. destruct (wf_pack _ _ W) as (l & Ln & Ep & N0 & F0). subst n.
    pose proof (step_fwd af p sc s0 s1 l V Ep N0 F0 H) as (dt & gr & ax & ms & g1 & g2 & rs & E1 & E2 & Eg1 & Eg2 & Ers & E). cbv zeta in E.
    assert (Hpi : forall i, In i pi -> (i < length l)%nat) by (intros; eapply perm_lt; eauto).
    assert (Pl : Permutation l (reorder pi l)) by (symmetry; now apply reorder_perm).
    assert (Ll : length (reorder pi l) = length l) by now apply reorder_length.
    assert (Lrs : length rs = length l) by (eapply mapM_length; eauto).
    assert (Prs : Permutation pi (seq 0 (length rs))) by now rewrite Lrs.
    assert (Eax : s_axes s1 = ax) by (destruct (use_musl p); [destruct E as (? & ? & _ & _ & ->)|subst s1]; reflexivity).
    rewrite Eax in GO. set (s0' := reorder_state pi s0).
    assert (Ep' : s_p s0' = pack (reorder pi l)) by (unfold s0', reorder_state; cbn [s_p]; rewrite Ep; apply reorder_pack).
    apply (step_bwd af p sc' s0' _ (reorder pi l) V' Ep'); [cbn; now rewrite Ll|now rewrite Ll|].
    exists dt, gr, ax, ms, g1, g2, (reorder pi rs). cbv zeta.
    split.
    { unfold updateDt in *. apply bind_Ok in E1. destruct E1 as (sp & Esp & E1). rewrite Ep' in *. rewrite Ep in Esp. cbn [pack p_v] in Esp.
      cbn [pack p_v]. rewrite (max_speed_any (map q_v l) (map q_v (reorder pi l)) sp) by (auto; now apply Permutation_map). cbn [bind].
      assert (Ed : dt = dt_of p sp (s_time s0) (s_frame s0) /\ gr = gravity_of p (s_time s0) (s_gravf s0) (s_grav s0)).
      { apply (f_equal (fun r => match r with Ok s => (s_dt s, s_grav s) | _ => (0, gr) end)) in E1. cbn in E1. apply pair_equal_spec in E1. destruct E1 as (<- & <-). auto. }
      destruct Ed as (-> & ->). reflexivity. }
    split.
    { pose proof (remesh_any af p (with_dt s0 dt gr) (with_dt s0' dt gr) (with_grid (with_dt s0 dt gr) ax ms)) as Rm. cbn [s_axes s_mesh with_grid] in Rm. apply Rm; auto.
      change (Permutation (p_x (s_p s0)) (p_x (s_p s0'))). rewrite Ep, Ep'. cbn [pack p_x]. now apply Permutation_map. }
    split; [exact (p2g_any p ax sc sc' l (reorder pi l) _ g1 V V' Pl Eg1)|].
    split.
    { change (s_plates s0') with (s_plates s0). eapply euler_any; [exact GO|apply (vs_euler _ V)|apply (vs_euler _ V')| |exact Eg2].
      unfold p2g in Eg1. apply bind_Ok in Eg1. destruct Eg1 as (nn & En & Eg1). apply Ok_inj in Eg1. subst g1. rewrite map_length.
      rewrite accumulate_total in En. apply (total_length p) in En. rewrite En. now apply (resize_length p). }
    split; [now apply reorder_mapM|].
    rewrite (existsb_reorder _ _ pi rs Prs).
    assert (Ng : length (ghosts p 4 (reorder pi l) (sc_pbc sc' (length (reorder pi l)))) = length (ghosts p 4 l (sc_pbc sc (length l)))) by (apply Permutation_length, Permutation_sym, ghosts_any; auto; apply vs_pbc; auto).
    rewrite Ng. destruct (use_musl p).
    - destruct E as (g3 & rs3 & Eg3 & Ers3 & ->). exists g3, (reorder pi rs3).
      assert (L3 : length rs3 = length l) by (apply mapM_length in Ers3; rewrite map_length in Ers3; congruence).
      split; [|split].
      + rewrite <- reorder_map. eapply musl_any; [| | |exact Eg3]; rewrite ?map_length, ?Lrs.
        * apply (vs_musl _ V).
        * rewrite reorder_map, map_length, (reorder_length pi rs Prs), Lrs, Ll. apply (vs_musl _ V').
        * symmetry. apply reorder_perm. now rewrite map_length.
      + rewrite <- reorder_map. apply reorder_mapM; [rewrite map_length; intros i Hi; rewrite Lrs; auto|exact Ers3].
      + unfold fin, reorder_state. cbn [s_p s_Np s_nadd s_axes s_nodes s_mesh s_time s_frame s_step s_dt s_grav s_gravf s_plates s_exit].
        rewrite reorder_pack, reorder_map, (existsb_reorder _ _ pi rs3) by (now rewrite L3). reflexivity.
    - subst s1. unfold fin, reorder_state. cbn [s_p s_Np s_nadd s_axes s_nodes s_mesh s_time s_frame s_step s_dt s_grav s_gravf s_plates s_exit].
      now rewrite reorder_pack, reorder_map.
  Qed.
End OrderP.
