(** * Properties C30-C32: periodic boundaries. *)
From Coq Require Import Reals ZArith Lra Lia List Bool Permutation.
From Verif Require Import Num NumR Tools Lin Types Remesh Objects Transfer Rma Plastic Pbc Step Spec SpecStep SpecMech SpecPbc LinProofs ResProofs
  KernelProofs GridProofs StencilProofs IndexProofs GradProofs RemeshProofs PloopProofs PbcProofs FuelProofs StepProofs StepMech StepField
  SpecTime TimeProofs PlateProofs GuardProofs ExStep ExMech.
Import ListNotations.
Local Open Scope R_scope.

(** ** C30 *)
(** [sched]: any order in which the iterations append their ghosts. *)
Theorem C30_ghosts_leave_no_trace : forall {A : Type} {NA : Num A} (G : Geo A) p sf P n sched, consistent P n -> Permutation sched (seq 0 n) ->
  exists P' k, pbcAdd p sf sched P = Ok (P', k) /\ Z.of_nat (length (p_x P')) = (Z.of_nat n + k)%Z /\
    firstn n (p_x P') = p_x P /\ firstn n (p_v P') = p_v P /\ firstn n (p_F P') = p_F P /\ firstn n (p_B P') = p_B P /\ firstn n (p_tau P') = p_tau P /\
    pbcDel k P' = Ok P.
Proof.
  intros A NA G p sf P n sched C V. destruct (consistent_pack _ _ C) as (l & L & ->).
  assert (Hs : forall i, In i sched -> (i < length l)%nat) by (intros i Hi; rewrite L; apply (Permutation_in _ V) in Hi; apply in_seq in Hi; lia).
  exists (ext l (ghosts p sf l sched)), (Z.of_nat (length (ghosts p sf l sched))). split; [now apply pbcAdd_spec|].
  split; [unfold ext; cbn [p_x]; rewrite app_length, !map_length; lia|].
  unfold ext, pack. cbn [p_x p_v p_F p_B p_tau].
  assert (Ft : forall X (f : P1 A -> X), firstn n (map f l ++ map f (ghosts p sf l sched)) = map f l).
  { intros. rewrite firstn_app, map_length, L, Nat.sub_diag, firstn_O, app_nil_r. apply firstn_all2. rewrite map_length. lia. }
  rewrite !Ft. repeat split. apply (pbcDel_spec l).
Qed.
Example C30_ex : forall p, let P := two_particles (e2 1 2) (e2 3 4) mzero mzero mzero mzero in
  consistent P 2 /\ Permutation [1%nat; 0%nat] (seq 0 2) /\ exists P' k, pbcAdd (G := Geo2 R) p 4 [1%nat; 0%nat] P = Ok (P', k).
Proof.
  intros. assert (C : consistent P 2) by (constructor; reflexivity). assert (Pm : Permutation [1%nat; 0%nat] (seq 0 2)) by apply perm_swap.
  split; [exact C|]. split; [exact Pm|]. destruct (C30_ghosts_leave_no_trace _ p 4 P 2 _ C Pm) as (P' & k & H & _). eauto.
Qed.
Print Assumptions C30_ghosts_leave_no_trace.

(** ** C31 *)
(** The displacement of a particle in a step is dt times the interpolated grid velocity. *)
Theorem C31_wrap_keeps_particles : forall (G : Geo R), two_or_three G -> forall svd uabs af p sc s0 s1 n,
  0 < dx p -> valid_sched sc -> well_formed s0 n -> use_pbc p = true -> change_pos p = false ->
  advanceStep svd uabs af p sc s0 = Ok s1 -> GridOk p (s_axes s1) ->
  exists P before after,
    p2g p (s_axes s1) P (sc_p2g sc (length (p_x P))) (resizeGrid (s_axes s1)) = Ok before /\
    euler p (s_plates s0) (s_dt s1) (s_grav s1) (s_axes s1) (sc_euler sc (Z.to_nat (grid_nodes (s_axes s1)))) before = Ok after /\
    forall i x x1, nth_error (p_x (s_p s0)) i = Some x -> nth_error (p_x (s_p s1)) i = Some x1 ->
      exists items, stencil base_g2p p (s_axes s1) x = Ok items /\
      let d k := s_dt s1 * mean (fun it => node_v after it k) items in
      (0 <= vget x 0 <= Lx p -> Rabs (d 0%nat) <= Lx p ->
         0 <= vget x1 0 <= Lx p /\
         (vget x1 0 = vget x 0 + d 0%nat \/ vget x1 0 = vget x 0 + d 0%nat + Lx p \/ vget x1 0 = vget x 0 + d 0%nat - Lx p)) /\
      (0 <= vget x 0 + d 0%nat <= Lx p -> vget x1 0 = vget x 0 + d 0%nat) /\
      (forall k, (0 < k < dim)%nat -> vget x1 k = vget x k + d k).
Proof.
  intros G HG svd uabs af p sc s0 s1 n Hdx V W Hb Hc H GO. pose proof (geolaws G HG) as GL.
  destruct (wf_pack s0 n W) as (l & L & E & N & F). destruct (step_run svd uabs af p sc s0 s1 l V E N F H) as [Rn].
  destruct (wf_kept svd uabs af p sc s0 s1 l Rn n W L) as (C1 & _). destruct W as (C0 & _).
  destruct (blended svd uabs af p sc s0 s1 l V Rn Hdx GO E) as (P & b & a & _ & B2 & B3 & B4). exists P, b, a. split; [exact B2|]. split; [exact B3|].
  intros i x x1 H1 H2.
  assert (Hi : (i < n)%nat) by (rewrite <- (co_x _ _ C0); apply nth_error_Some; congruence).
  destruct (nth_error (p_v (s_p s0)) i) as [v|] eqn:Ev; [|apply nth_error_None in Ev; rewrite (co_v _ _ C0) in Ev; lia].
  destruct (nth_error (p_v (s_p s1)) i) as [v1|] eqn:Ev1; [|apply nth_error_None in Ev1; rewrite (co_v _ _ C1) in Ev1; lia].
  destruct (B4 i x v x1 v1 H1 Ev H2 Ev1) as (items & Es & _ & _ & Hx). exists items. split; [exact Es|]. cbv zeta.
  specialize (Hx Hb Hc). cbv zeta in Hx. pose proof (Hx 0%nat dim_pos) as H0. cbn [Nat.eqb] in H0.
  set (d := s_dt s1 * mean (fun it => node_v a it 0) items) in *. repeat split.
  - apply Rabs_le_iv in H4. revert H0. destruct (Rltb_spec (Lx p) (vget x 0 + d)); [|destruct (Rltb_spec (vget x 0 + d) 0)]; intros ->; lra.
  - apply Rabs_le_iv in H4. revert H0. destruct (Rltb_spec (Lx p) (vget x 0 + d)); [|destruct (Rltb_spec (vget x 0 + d) 0)]; intros ->; lra.
  - revert H0. destruct (Rltb_spec (Lx p) (vget x 0 + d)); [|destruct (Rltb_spec (vget x 0 + d) 0)]; intros ->; [right; right; ring|right; left; ring|left; ring].
  - intros Hr. revert H0. destruct (Rltb_spec (Lx p) (vget x 0 + d)); [|destruct (Rltb_spec (vget x 0 + d) 0)]; intros ->; lra.
  - intros k Hk. rewrite (Hx k) by lia. destruct k; [lia|reflexivity].
Qed.
Print Assumptions C31_wrap_keeps_particles.

(** ** C32 *)
Lemma image_cases : forall (G : Geo R) p (x : TV), 0 < dx p -> 8 * dx p <= Lx p -> 0 <= vget x 0 < Lx p ->
  (vget x 0 < 4 * dx p /\ pbc_image p 4 x = Some (shift_x x (Lx p))) \/
  (Lx p - 4 * dx p < vget x 0 /\ pbc_image p 4 x = Some (shift_x x (- Lx p))) \/
  (4 * dx p <= vget x 0 <= Lx p - 4 * dx p /\ pbc_image p 4 x = None).
Proof.
  intros G p x Hdx HL Hx. unfold pbc_image, shift_x. cbv zeta. rewrite !nofZ_R. numR.
  destruct (Rltb_spec (Lx p - vget x 0) (4 * dx p)) as [A|A]; destruct (Rltb_spec 0 (Lx p - vget x 0)) as [B|B]; cbn [andb]; try lra.
  - right. left. split; [lra|]. do 2 f_equal. ring.
  - destruct (Rltb_spec (vget x 0) (4 * dx p)) as [D|D]; destruct (Rleb_spec 0 (vget x 0)) as [E|E]; cbn [andb negb]; try lra.
    + left. split; [lra|]. do 2 f_equal. ring.
    + right. right. split; [lra|reflexivity].
Qed.
Lemma nth_error_flat_map : forall X Y (f : X -> list Y) l i x j y, nth_error l i = Some x -> nth_error (f x) j = Some y -> exists k, nth_error (flat_map f l) k = Some y.
Proof. intros. apply In_nth_error. apply in_flat_map. exists x. split; eapply nth_error_In; eauto. Qed.
(** For every particle in [0,Lx) the transfer sees exactly the images the property asks for, with
    all data the transfer reads (except muI). *)
Theorem C32_images_partial : forall (G : Geo R) p P n sched P' k, consistent P n -> Permutation sched (seq 0 n) ->
  0 < dx p -> 8 * dx p <= Lx p -> pbcAdd p 4 sched P = Ok (P', k) ->
  (forall x, In x (p_x P) -> 0 <= vget x 0 < Lx p) ->
  (forall i x, nth_error (p_x P) i = Some x -> vget x 0 < 4 * dx p -> exists j, (n <= j)%nat /\ image_at P' i j (Lx p)) /\
  (forall i x, nth_error (p_x P) i = Some x -> Lx p - 4 * dx p < vget x 0 -> exists j, (n <= j)%nat /\ image_at P' i j (- Lx p)) /\
  (forall j, (n <= j < length (p_x P'))%nat -> exists i x, nth_error (p_x P) i = Some x /\
     (vget x 0 < 4 * dx p /\ image_at P' i j (Lx p) \/ Lx p - 4 * dx p < vget x 0 /\ image_at P' i j (- Lx p))) /\
  Z.to_nat k = length (filter (fun x => Rltb (vget x 0) (4 * dx p) || Rltb (Lx p - 4 * dx p) (vget x 0)) (p_x P)).
Proof.
  intros G p P n sched P' k C V Hdx HL H Hd. destruct (consistent_pack _ _ C) as (l & L & ->).
  assert (Hs : forall i, In i sched -> (i < length l)%nat) by (intros i Hi; rewrite L; apply (Permutation_in _ V) in Hi; apply in_seq in Hi; lia).
  rewrite (pbcAdd_spec p 4 l sched Hs) in H. injection H as <- <-. set (gs := ghosts p 4 l sched).
  assert (Fst : forall X (f : P1 R -> X) i q, nth_error l i = Some q -> nth_error (map f l ++ map f gs) i = Some (f q)).
  { intros X f i q Hq. rewrite nth_error_app1 by (rewrite map_length; apply nth_error_Some; congruence). rewrite nth_error_map, Hq. reflexivity. }
  assert (Snd : forall X (f : P1 R -> X) j g, nth_error gs j = Some g -> nth_error (map f l ++ map f gs) (n + j) = Some (f g)).
  { intros X f j g Hg. rewrite nth_error_app2 by (rewrite map_length; lia). rewrite map_length, L. replace (n + j - n)%nat with j by lia. rewrite nth_error_map, Hg. reflexivity. }
  assert (Img : forall i q j d, nth_error l i = Some q -> nth_error gs j = Some (set_x q (shift_x (q_x q) d)) -> image_at (ext l gs) i (n + j) d).
  { intros i q j d Hq Hg. exists (q_x q), (q_v q), (q_F q), (q_B q), (q_tau q). unfold ext; cbn [p_x p_v p_F p_B p_tau].
    rewrite !(Fst _ _ i q Hq), !(Snd _ _ j _ Hg). repeat split. }
  assert (Has : forall i q d, nth_error l i = Some q -> pbc_image p 4 (q_x q) = Some (shift_x (q_x q) d) -> exists j, (n <= j)%nat /\ image_at (ext l gs) i j d).
  { intros i q d Hq Hp. assert (Hg : In (set_x q (shift_x (q_x q) d)) gs).
    { apply ghosts_In; [now rewrite L|]. exists q. split; [eapply nth_error_In; eauto|]. eauto. }
    apply In_nth_error in Hg. destruct Hg as (j & Hg). exists (n + j)%nat. split; [lia|]. eapply Img; eauto. }
  assert (Hin : forall q, In q l -> 0 <= vget (q_x q) 0 < Lx p) by (intros q Hq; apply Hd; unfold pack; cbn [p_x]; now apply in_map).
  repeat split.
  - intros i x Hx Hl. unfold pack in Hx; cbn [p_x] in Hx. rewrite nth_error_map in Hx. destruct (nth_error l i) as [q|] eqn:Eq; [|discriminate]. injection Hx as <-.
    pose proof (Hin q (nth_error_In _ _ Eq)) as D. destruct (image_cases _ p (q_x q) Hdx HL D) as [(_ & E)|[(A & _)|(A & _)]]; [|lra|lra]. eapply Has; eauto.
  - intros i x Hx Hl. unfold pack in Hx; cbn [p_x] in Hx. rewrite nth_error_map in Hx. destruct (nth_error l i) as [q|] eqn:Eq; [|discriminate]. injection Hx as <-.
    pose proof (Hin q (nth_error_In _ _ Eq)) as D. destruct (image_cases _ p (q_x q) Hdx HL D) as [(A & _)|[(_ & E)|(A & _)]]; [lra| |lra]. eapply Has; eauto.
  - intros j Hj. unfold ext in Hj; cbn [p_x] in Hj. rewrite app_length, !map_length, L in Hj. replace j with (n + (j - n))%nat by lia. set (m := (j - n)%nat). assert (Hm : (m < length gs)%nat) by (unfold m; lia).
    apply nth_error_Some in Hm. destruct (nth_error gs m) as [g|] eqn:Eg; [|congruence].
    assert (Hg : In g gs) by (eapply nth_error_In; eauto). unfold gs in Hg. apply ghosts_In in Hg; [|now rewrite L]. destruct Hg as (q & Hq & x' & Hx' & ->).
    pose proof (Hin q Hq) as D. apply In_nth_error in Hq. destruct Hq as (i & Hi). exists i, (q_x q). split; [unfold pack; cbn [p_x]; rewrite nth_error_map, Hi; reflexivity|].
    destruct (image_cases _ p (q_x q) Hdx HL D) as [(A & E)|[(A & E)|(A & E)]]; rewrite E in Hx'; [left|right|discriminate]; injection Hx' as <-; (split; [exact A|]); eapply Img; eauto.
  - rewrite Nat2Z.id. unfold gs. rewrite (Permutation_length (ghosts_perm p 4 l _ _ V)). unfold ghosts. rewrite <- L.
    assert (E : forall m : nat -> P1 R -> list (P1 R), True) by auto. clear E.
    unfold pack; cbn [p_x]. clear - Hin Hdx HL.
    assert (K : forall l0 pre, (forall q, In q l0 -> 0 <= vget (q_x q) 0 < Lx p) ->
      length (flat_map (fun i => match nth_error (pre ++ l0) i with Some q => ghost p 4 q | None => [] end) (seq (length pre) (length l0))) =
      length (filter (fun x => Rltb (vget x 0) (4 * dx p) || Rltb (Lx p - 4 * dx p) (vget x 0)) (map q_x l0))).
    { induction l0 as [|q l0 IH]; intros pre HH; [reflexivity|]. cbn [length seq flat_map map filter].
      rewrite nth_error_app2, Nat.sub_diag by lia. cbn [nth_error]. rewrite app_length.
      specialize (IH (pre ++ [q]) (fun q' Hq' => HH q' (or_intror Hq'))). rewrite <- app_assoc, app_length in IH. cbn [length app] in IH. rewrite Nat.add_1_r in IH. rewrite IH.
      pose proof (HH q (or_introl eq_refl)) as D. unfold ghost. destruct (image_cases _ p (q_x q) Hdx HL D) as [(A & E)|[(A & E)|(A & E)]]; rewrite E;
      destruct (Rltb_spec (vget (q_x q) 0) (4 * dx p)), (Rltb_spec (Lx p - 4 * dx p) (vget (q_x q) 0)); cbn [orb length]; try lra; reflexivity. }
    exact (K l [] Hin).
Qed.
(** The three ways in which the full property fails.  A particle exactly at x = Lx: *)
Theorem C32_right_end_refuted : forall (G : Geo R) p (x : TV), 0 < dx p -> 4 * dx p <= Lx p -> vget x 0 = Lx p -> pbc_image p 4 x = None.
Proof.
  intros G p x Hdx HL Hx. unfold pbc_image. cbv zeta. rewrite !nofZ_R, Hx. numR.
  destruct (Rltb_spec (Lx p - Lx p) (4 * dx p)); destruct (Rltb_spec 0 (Lx p - Lx p)); try lra. cbn [andb].
  destruct (Rltb_spec (Lx p) (4 * dx p)); try lra. reflexivity.
Qed.
(** Narrow domains: a particle within four cells of both ends gets only the image on the left. *)
Theorem C32_narrow_domain_refuted : forall (G : Geo R), two_or_three G -> forall p (x : TV), 0 < dx p -> 0 <= vget x 0 < Lx p -> vget x 0 < 4 * dx p -> Lx p - 4 * dx p < vget x 0 ->
  pbc_image p 4 x = Some (shift_x x (- Lx p)) /\ pbc_image p 4 x <> Some (shift_x x (Lx p)).
Proof.
  intros G HG p x Hdx Hx H1 H2. pose proof (geolaws G HG) as GL. assert (E : pbc_image p 4 x = Some (shift_x x (- Lx p))).
  { unfold pbc_image, shift_x. cbv zeta. rewrite !nofZ_R. numR.
    destruct (Rltb_spec (Lx p - vget x 0) (4 * dx p)); destruct (Rltb_spec 0 (Lx p - vget x 0)); try lra. cbn [andb]. do 2 f_equal. ring. }
  split; [exact E|]. rewrite E. intros Q. injection Q as Q. apply (f_equal (fun v => vget v 0)) in Q. unfold shift_x in Q. rewrite !vget_set in Q by (auto using dim_pos). cbn in Q. lra.
Qed.
Lemma foldM_each : forall X S (f : S -> X -> res S) l s s', foldM f l s = Ok s' -> forall x, In x l -> exists s1 s2, f s1 x = Ok s2.
Proof.
  intros X S f. induction l as [|y l IH]; intros s s' H x Hx; [destruct Hx|]. cbn in H. apply bind_Ok in H. destruct H as (s2 & E & H). destruct Hx as [<-|Hx]; [eauto|]. eapply IH; eauto.
Qed.
(** Material-induced boundary friction: the step is undefined as soon as there is one ghost. *)
Theorem C32_friction_refuted : forall (G : Geo R), two_or_three G -> forall svd uabs af p sc s0 n i x,
  valid_sched sc -> well_formed s0 n -> use_pbc p = true -> use_mibf p = true ->
  nth_error (p_x (s_p s0)) i = Some x -> pbc_image p 4 x <> None ->
  forall s1, advanceStep svd uabs af p sc s0 <> Ok s1.
Proof.
  intros G HG svd uabs af p sc s0 n i x V W Hb Hm Hx Hi s1 H. pose proof (geolaws G HG) as GL.
  destruct (wf_pack s0 n W) as (l & L & E & N & F). destruct (step_run svd uabs af p sc s0 s1 l V E N F H) as [Rn].
  pose proof (ru_p2g _ _ _ _ _ _ _ _ Rn) as E1. unfold p2g in E1. apply bind_Ok in E1. destruct E1 as (g & E1 & _).
  rewrite E in Hx. unfold pack in Hx; cbn [p_x] in Hx. rewrite nth_error_map in Hx. destruct (nth_error l i) as [q|] eqn:Eq; [|discriminate]. injection Hx as <-.
  set (gs := ghosts p 4 l (sc_pbc sc (length l))) in *.
  assert (Hg : (0 < length gs)%nat).
  { destruct (pbc_image p 4 (q_x q)) as [x'|] eqn:Ei; [|congruence]. assert (Hin : In (set_x q x') gs) by (apply ghosts_In; [apply (vs_pbc sc V)|]; exists q; split; [eapply nth_error_In; eauto|eauto]). destruct gs; [destruct Hin|cbn; lia]. }
  unfold grid_particles in E1. rewrite Hb in E1. fold gs in E1. set (P := ext l gs) in *.
  assert (Len : length (p_x P) = (length l + length gs)%nat) by (unfold P, ext; cbn [p_x]; rewrite app_length, !map_length; reflexivity).
  assert (Hin : In (length l) (concat (sc_p2g sc (length (p_x P))))).
  { eapply Permutation_in; [apply Permutation_sym, (vs_p2g sc V)|]. apply in_seq. lia. }
  apply in_concat in Hin. destruct Hin as (th & Hth & Hi'). unfold p2g_accumulate in E1.
  destruct (foldM_each _ _ _ _ _ _ E1 th Hth) as (a & b & Ea). apply bind_Ok in Ea. destruct Ea as (loc & Ea & _). unfold p2g_thread in Ea.
  destruct (foldM_each _ _ _ _ _ _ Ea _ Hi') as (c & d & Ed). unfold p2g_particle in Ed. cbv zeta in Ed. rewrite Hm in Ed. invb.
  match goal with Q : rd (p_hist P) _ = Ok _ |- _ => rename Q into Eh end.
  unfold rd in Eh. destruct (_ <? _)%Z; [discriminate|]. unfold P, ext in Eh; cbn [p_hist] in Eh. rewrite Nat2Z.id in Eh.
  rewrite (proj2 (nth_error_None _ _)) in Eh; [discriminate|rewrite map_length; lia].
Qed.

(** ** C53 with periodic boundaries *)
Section Safe.
  Context {G : Geo R} {GL : GeoLaws G}.
  Lemma image_range : forall p (x x' : TV), 0 < dx p -> 0 <= vget x 0 <= Lx p -> pbc_image p 4 x = Some x' ->
    - 4 * dx p <= vget x' 0 < Lx p + 4 * dx p /\ forall k, (0 < k < dim)%nat -> vget x' k = vget x k.
  Proof.
    intros p x x' Hdx Hx H. unfold pbc_image in H. cbv zeta in H. rewrite ?nofZ_R in H. numR.
    revert H. destruct (Rltb_spec (Lx p - vget x 0) (4 * dx p)); destruct (Rltb_spec 0 (Lx p - vget x 0)); cbn [andb];
    try (intros H; injection H as <-; split; [rewrite vget_set by apply dim_pos; cbn; lra|intros k Hk; rewrite vget_set by lia; destruct k; [lia|reflexivity]]);
    (destruct (Rltb_spec (vget x 0) (4 * dx p)); destruct (Rleb_spec 0 (vget x 0)); cbn [andb]; intros H; try discriminate; injection H as <-;
     split; [rewrite vget_set by apply dim_pos; cbn; lra|intros k Hk; rewrite vget_set by lia; destruct k; [lia|reflexivity]]).
  Qed.
  Lemma fixed_size : forall af p axes, 0 < dx p -> Lx p <= 180 * dx p -> Ly p <= 180 * dx p -> Lz p <= 180 * dx p ->
    remeshFixed af p 4 = Ok axes -> (prodlen axes <= 4294967295)%Z.
  Proof.
    intros af p axes Hdx B0 B1 B2 Ea.
    assert (Sz : forall a, In a axes -> (0 <= Z.of_nat (length (ax_co a)) <= 206)%Z).
    { intros a Ha. apply In_nth_error in Ha. destruct Ha as (k & Ek). pose proof (mapM_seq_nth _ _ _ _ _ _ Ea Ek) as K. split; [lia|].
      assert (INR (lat_n a) < 206 + 1).
      { destruct k as [|[|k]]; unfold remeshFixed_axis in K; apply mk_axis_spec in K; auto; destruct K as (_ & _ & _ & K); rewrite ?nofZ_R in K; numR; simpl Z.add in K;
        apply Rmult_lt_reg_r with (dx p); auto; nra. }
      fold (lat_n a). rewrite INR_IZR_INZ in H. apply Z.lt_succ_r. apply lt_IZR. rewrite succ_IZR. lra. }
    assert (La : length axes = dim) by (unfold remeshFixed in Ea; apply mapM_length in Ea; now rewrite seq_length in Ea).
    destruct (axes_cases _ La) as [(_ & ax & ay & Q)|(_ & ax & ay & az & Q)]; rewrite Q in *; unfold prodlen; cbn [fold_right].
    - pose proof (Sz ax (or_introl eq_refl)). pose proof (Sz ay (or_intror (or_introl eq_refl))). nia.
    - pose proof (Sz ax (or_introl eq_refl)). pose proof (Sz ay (or_intror (or_introl eq_refl))). pose proof (Sz az (or_intror (or_intror (or_introl eq_refl)))).
      assert (M : forall a b, (0 <= a <= 206 -> 0 <= b <= 42436 -> 0 <= a * b <= 8741816)%Z) by (intros; nia).
      assert (M2 : forall a b, (0 <= a <= 206 -> 0 <= b <= 206 -> 0 <= a * (b * 1) <= 42436)%Z) by (intros; nia).
      eapply Z.le_trans; [apply M; [auto|apply M2; auto]|lia].
  Qed.
End Safe.
(** Any step, first or later, as long as the particles are in the box (and not below y = 0). *)
Theorem C53_periodic_step_is_safe : forall (G : Geo R), two_or_three G -> forall svd uabs af p sc s0 n axes,
  0 < dx p -> use_pbc p = true -> use_mibf p = false -> valid_sched sc -> well_formed s0 n -> (0 < n)%nat ->
  obstacles_defined p -> material_defined svd uabs p ->
  Lx p <= 180 * dx p -> Ly p <= 180 * dx p -> Lz p <= 180 * dx p -> remeshFixed af p 4 = Ok axes ->
  s_step s0 = 0%Z \/ s_axes s0 = axes ->
  (forall x, In x (p_x (s_p s0)) -> 0 <= vget x 0 <= Lx p /\ 0 <= vget x 1 < Ly p + 4 * dx p /\ (dim = 3%nat -> - 4 * dx p <= vget x 2 < Lz p + 4 * dx p)) ->
  exists s1, advanceStep svd uabs af p sc s0 = Ok s1 /\ s_axes s1 = axes /\ GridOk p axes.
Proof.
  intros G HG svd uabs af p sc s0 n axes Hdx Pb Pm V WF Hn Ob Ma B0 B1 B2 Ea Ax Hx. pose proof (geolaws G HG) as GL.
  destruct (wf_pack _ _ WF) as (l & Ll & E0 & N0 & F0).
  assert (Us : exists s', updateDt p s0 = Ok s' /\ s_step s' = s_step s0 /\ s_axes s' = s_axes s0).
  { unfold updateDt. destruct (p_v (s_p s0)) as [|v vs] eqn:Ev; [rewrite E0 in Ev; destruct l; [cbn in Ll; lia|discriminate]|]. unfold max_speed. cbn [bind]. eexists. split; [reflexivity|]. split; reflexivity. }
  destruct Us as (s' & U & Us & Ua).
  assert (Rm : exists s2, remesh af p s' = Ok s2 /\ s_axes s2 = axes).
  { unfold remesh. rewrite Pb. destruct (Z.eqb_spec (s_step s') 0) as [Q|Q]; [rewrite Ea; cbn [bind]; eexists; split; reflexivity|].
    exists s'. split; [reflexivity|]. destruct Ax; congruence. }
  destruct Rm as (s2 & Rm & A2). assert (GO : GridOk p axes) by (eapply fixed_grid_ok; eauto; eapply fixed_size; eauto).
  assert (D : forall k, (k < dim)%nat -> k = 0%nat \/ k = 1%nat \/ k = 2%nat /\ dim = 3%nat) by (destruct gl_dim as [Q|Q]; rewrite Q; intros; lia).
  destruct (step_safe svd uabs af p sc s0 n s' s2 Hdx V WF Ob Ma) as (s1 & E1); auto; rewrite ?A2; auto.
  - intros x Hin. destruct (Hx x Hin) as (H0 & H1 & H2). apply in_grid_covered; auto. eapply fixed_covers; eauto. lra.
  - intros _ x x' Hin Hi. destruct (Hx x Hin) as (H0 & H1 & H2). destruct (image_range p x x' Hdx H0 Hi) as (R0 & Rk).
    apply in_grid_covered; auto. eapply fixed_covers; eauto; [|intros Q]; rewrite Rk by (destruct gl_dim; lia); auto.
  - exists s1. split; [exact E1|]. split; [|exact GO].
    destruct (step_run svd uabs af p sc s0 s1 l V E0 N0 F0 E1) as [[axs ms g1 g2 rs (sx & Er & Axx & _) Rd _ _ _ _ Sx _ _ _]].
    rewrite Rd in U. injection U as <-. rewrite Rm in Er. injection Er as <-. congruence.
Qed.
(** A periodic box of 10 x 10 cells with a particle next to each end; MUSL. *)
Definition pb_p : @Par R (Geo2 R) :=
  {| spline := Deg2; end_frame := 1; use_pbc := true; change_pos := false; gravity_special := false;
     save_sim := true; save_grid := false; use_mibf := false; use_musl := true;
     grid_ref := vtab (fun _ => 20000000000); gravity0 := e2 0 (-10);
     min_dt := 1/100000000000000; fps := 1000; cfl := 1/2; cfl_elastic := 1/2; flip_ratio := -1;
     rho := 1000; gravity_time := 2; Lx := 10; Ly := 10; Lz := 10;
     particle_mass := 1; particle_volume := 1; dx := 1;
     elastic_model := Hencky; plastic_model := NoPlasticity; hardening_law := ExpoImpl;
     use_pradhana := true; young := 1000; nu := 3/10; stress_tolerance := 1/100000; xi := 0;
     q_max := 100; q_min := 100; p_min := -100000000000000000000;
     Mfric := 1; q_cohesion := 0; visc_exponent := 1; visc_time := 0; use_dl := false;
     beta := 0; p0 := 1000; rho_s := 2500; grain_diameter := 1/1000; I_ref := 279/1000;
     mu_1 := 38/100; mu_2 := 64/100; q_prefac := 1 / sqrt 2; objects := [] |}.
Definition pb_cloud : @Particles R (Geo2 R) :=
  mkParticles (G := Geo2 R) [e2 (1/2) 5; e2 (19/2) 5] [e2 3 0; e2 3 0] [vzero; vzero] [vzero; vzero]
    [mkHist 0 0 0 0 0 0; mkHist 0 0 0 0 0 0] [mident; mident] [mzero; mzero] [mzero; mzero].
Example C53_periodic_ex : forall svd uabs, exists af axes s1, let s0 := ex_state pb_p pb_cloud in
  well_formed s0 2 /\ remeshFixed af pb_p 4 = Ok axes /\ advanceStep svd uabs af pb_p rev_sched s0 = Ok s1 /\ s_axes s1 = axes /\ GridOk pb_p axes.
Proof.
  intros. destruct (fixed_terminates (G := Geo2 R) pb_p ltac:(cbn; lra) ltac:(cbn; lra) ltac:(cbn; lra) ltac:(cbn; lra)) as (af & T). destruct (T af (le_n _)) as (axes & Ea).
  assert (W : well_formed (ex_state pb_p pb_cloud) 2) by (split; [constructor; reflexivity|split; [reflexivity|cbn; lia]]).
  destruct (C53_periodic_step_is_safe _ (or_introl eq_refl) svd uabs af pb_p rev_sched (ex_state pb_p pb_cloud) 2 axes ltac:(cbn; lra) eq_refl eq_refl rev_valid W ltac:(lia)
    (no_obstacles pb_p eq_refl) (no_plasticity svd uabs pb_p eq_refl) ltac:(cbn; lra) ltac:(cbn; lra) ltac:(cbn; lra) Ea (or_introl eq_refl)) as (s1 & E1 & A1 & GO).
  - intros x [<-|[<-|[]]]; cbn; repeat split; try lra; intros; discriminate.
  - exists af, axes, s1. auto.
Qed.
(** The same box meets the hypotheses of C31 and C32. *)
Example C31_C32_ex : (forall x, In x (p_x pb_cloud) -> 0 <= vget (Geo := Geo2 R) x 0 < Lx pb_p) /\ 8 * dx pb_p <= Lx pb_p /\ consistent pb_cloud 2 /\
  pbc_image pb_p 4 (e2 (1/2) 5) = Some (shift_x (e2 (1/2) 5) 10) /\ pbc_image pb_p 4 (e2 (19/2) 5) = Some (shift_x (e2 (19/2) 5) (-10)).
Proof.
  split; [intros x [<-|[<-|[]]]; cbn; lra|]. split; [cbn; lra|]. split; [constructor; reflexivity|]. split.
  - destruct (image_cases (Geo2 R) pb_p (e2 (1/2) 5)) as [(_ & E)|[(A & _)|(A & _)]]; [cbn; lra|cbn; lra|cbn; lra|exact E|cbn in A; lra|cbn in A; lra].
  - destruct (image_cases (Geo2 R) pb_p (e2 (19/2) 5)) as [(A & _)|[(_ & E)|(A & _)]]; [cbn; lra|cbn; lra|cbn; lra|cbn in A; lra|exact E|cbn in A; lra].
Qed.
Print Assumptions C32_images_partial.
Print Assumptions C32_right_end_refuted.
Print Assumptions C32_narrow_domain_refuted.
Print Assumptions C32_friction_refuted.
Print Assumptions C53_periodic_step_is_safe.
