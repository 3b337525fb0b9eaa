(** * RingProofs: a step with periodic boundaries. *)
From Coq Require Import Reals ZArith Lra Lia List Bool Permutation.
From Coquelicot Require Import Derive.
From Flocq Require Import Core.Raux.
From Verif Require Import Num NumR Tools Lin Types Remesh Objects Transfer Rma Plastic Pbc Step Save Spec SpecStep SpecMech SpecMaterial SpecMpm SpecLocal SpecPbc SpecRing
  LinProofs ResProofs KernelProofs GridProofs StencilProofs IndexProofs GradProofs AccumProofs P2GProofs ConsProofs MuslProofs RemeshProofs
  PloopProofs PbcProofs StepProofs StepMech StepField PlasticModels MaterialStep OutputProofs MpmProofs BalanceProofs TwinProofs LocalProofs PropPbc.
Import ListNotations.
Local Open Scope R_scope.

Section StepLawOn.
  Context {G : Geo R} {GL : GeoLaws G}.
  Variable svd : TM -> TM * TV * TM.
  Variable uabs : R -> R.

  (** The laws of a step when the transfer to the grid sees the particles [lg]; positions before the periodic wrap. *)
  Theorem step_laws_on : forall af p sc s0 s1 n l (Rn : Run svd uabs af p sc s0 s1 l) lg sched, 0 < dx p -> 0 < particle_mass p -> valid_sched sc -> well_formed s0 n -> s_p s0 = pack l ->
    advanceStep svd uabs af p sc s0 = Ok s1 -> GridOk p (s_axes s1) -> 
    (forall q, In q lg -> Covered p (s_axes s1) (q_x q)) -> (forall q, In q lg -> no_tiny_weights p (s_axes s1) (q_x q)) -> (spline p = Deg1 -> forall q, In q lg -> off_lines p (s_axes s1) (q_x q)) ->
    incl l lg -> thread_schedule sched (length lg) -> p2g p (s_axes s1) (pack lg) sched (resizeGrid (s_axes s1)) = Ok (ru_g1 _ _ _ _ _ _ _ _ Rn) ->
    let l1 := particles (s_p s1) in let pos := positions (s_axes s1) in
    exists grid, Forall2 (node_law p (s_plates s0) (s_dt s1) (s_grav s1) lg) pos grid /\
      (if use_musl p then Forall2 (musl_law p (combine l l1)) (combine pos grid) (s_nodes s1) else s_nodes s1 = grid) /\
      Forall2 (fun q q1 => exists x, (change_pos p = false -> q_x q1 = pbc_wrap p x) /\
        particle_law svd uabs p (s_dt s1) lg (combine pos grid) (combine pos (s_nodes s1)) q (set_x q1 x)) l l1.
  Proof.
    intros af p sc s0 s1 n l Rn lg sched Hdx Hm V W E H GO Covg Ntg Olg Inc Sc E1. cbv zeta.
    destruct (step_constitutive svd uabs af p sc s0 s1 n V W H) as (la & lb & Ea & _ & Eb & St).
    assert (la = l) by (apply pack_inj; congruence). subst la.
    assert (Cov : forall q, In q l -> Covered p (s_axes s1) (q_x q)) by auto.
    assert (Nt : forall q, In q l -> no_tiny_weights p (s_axes s1) (q_x q)) by auto.
    assert (Ol : spline p = Deg1 -> forall q, In q l -> off_lines p (s_axes s1) (q_x q)) by auto.
    pose proof (ru_euler _ _ _ _ _ _ _ _ Rn) as E2. pose proof (r_len svd uabs af p sc s0 s1 l V Rn GO) as Len.
    pose proof (r_kins svd uabs af p sc s0 s1 l V Rn Hdx GO) as Ks. destruct (r_fin svd uabs af p sc s0 s1 l Rn) as (l1 & El1 & Fs).
    assert (lb = l1) by (apply pack_inj; congruence). subst lb.
    rewrite <- (ru_saxes _ _ _ _ _ _ _ _ Rn) in E2.
    set (axes := s_axes s1) in *. set (g1 := ru_g1 _ _ _ _ _ _ _ _ Rn) in *. set (g2 := ru_g2 _ _ _ _ _ _ _ _ Rn) in *. set (rs := ru_rs _ _ _ _ _ _ _ _ Rn) in *.
    destruct (nodes_law p Hdx Hm axes GO lg Covg Ntg Olg _ Sc g1 E1 _ _ _ _ g2 (vs_euler sc V _) E2) as (NL & FL).
    rewrite El1, !particles_pack. exists g2. split; [exact NL|].
    assert (KF : Forall2 (fun q q1 => exists r, Kin svd uabs af p sc s0 s1 l Rn q r /\ Fin p s1 r q1) l l1).
    { eapply F2_trans; [|exact Ks|exact Fs]. intros q r q1 _ A B. exists (fst r). auto. }
    split.
    - pose proof (ru_rest _ _ _ _ _ _ _ _ Rn) as RR. destruct (use_musl p) eqn:Mu; [|exact (proj1 RR)].
      destruct RR as (g3 & rs3 & Hg & _ & Hn & _ & _). fold rs g2 in Hg. rewrite <- (ru_saxes _ _ _ _ _ _ _ _ Rn) in Hg. fold axes in Hg. rewrite Hn.
      set (lb := map (fun r => blend_of p (fst r)) rs) in *.
      assert (FB : Forall2 (fun q b => q_x b = q_x q) l lb) by (unfold lb; apply F2_map_r; eapply F2_impl; [|exact Ks]; intros q r _ Ki; exact (ki_x _ _ _ _ _ _ _ _ _ _ _ Ki)).
      assert (FB1 : Forall2 (fun b q1 => q_v b = q_v q1 /\ q_B b = q_B q1) lb l1).
      { unfold lb. apply F2_map_l. eapply F2_impl; [|exact Fs]. intros r q1 _ F1. cbv beta in F1 |- *. split; symmetry; [exact (fi_v _ _ _ _ F1)|exact (fi_B _ _ _ _ F1)]. }
      assert (Lb : length lb = length l) by (symmetry; exact (F2_length _ _ _ _ _ FB)). assert (L1 : length l1 = length l) by (rewrite <- Lb; symmetry; exact (F2_length _ _ _ _ _ FB1)).
      assert (Ex : map q_x lb = map q_x l) by (symmetry; apply (F2_map_eq _ _ _ q_x q_x (fun q b => q_x b = q_x q)); auto).
      destruct (musl_run p Hdx axes (pack lb) (length l) (sc_musl sc (length l)) g2 GO) as (ds & g3' & Ld & Dx & Dv & DB & _ & E' & L3 & N); try (unfold pack; cbn [p_x p_v p_B]; rewrite map_length; exact Lb).
      { intros _. unfold pack; cbn [p_B]. rewrite map_length; exact Lb. }
      { intros x Hx. unfold pack in Hx; cbn [p_x] in Hx. rewrite Ex in Hx. apply in_map_iff in Hx. destruct Hx as (q & <- & Hq). apply in_grid_covered; auto. }
      { apply (vs_musl sc V). }
      { exact Len. }
      rewrite Hg in E'. apply Ok_inj in E'. subst g3'.
      assert (Lp : length (combine (positions axes) g2) = length g2) by (rewrite combine_length, (F2_length _ _ _ _ _ NL); apply Nat.min_id).
      apply F2_nth; [rewrite Lp; auto|]. intros j (X, nd0) nd HX Hnd.
      assert (Lj : (j < length g2)%nat) by (rewrite <- Lp; apply nth_error_Some; congruence). assert (Hj : (Z.of_nat j < prodlen axes)%Z) by (rewrite <- Len; lia).
      assert (HX' : X = node_pos p axes j /\ nth_error g2 j = Some nd0).
      { destruct (nth_error g2 j) as [y|] eqn:Ey; [|apply nth_error_None in Ey; lia].
        assert (Ep : nth_error (positions axes) j = Some (node_pos p axes j)).
        { rewrite (positions_spec p) by auto. rewrite nth_error_map, (nth_error_nth' _ 0%nat) by (rewrite seq_length; lia). rewrite seq_nth by lia. reflexivity. }
        rewrite (nth_error_combine _ _ _ _ _ _ _ Ep Ey) in HX. split; congruence. }
      destruct HX' as (-> & E0). destruct (N j nd0 E0) as (nd' & En' & Nm & _ & _ & _ & Nv & Nz). assert (nd' = nd) by congruence. subst nd'.
      assert (M0 : nd_m nd0 = Mj p axes lg j * particle_mass p).
      { destruct (proj2 (nodes_mass p Hdx axes GO lg Covg Ntg _ Sc g1 E1 _ _ _ _ g2 (vs_euler sc V _) E2) j nd0 E0). auto. }
      split; cbn [fst snd].
      + exact Nm.
      + intros Hz. apply Nz. lra.
      + intros Hp k Hk. rewrite Nm in Hp |- *. rewrite (Nv Hp k Hk). transitivity (particle_mass p * Rsum (fun qq => weight p (node_pos p axes j) (q_x (fst qq)) * carried p (q_v (snd qq)) (q_B (snd qq)) (q_x (fst qq)) (node_pos p axes j) k) (combine l l1)); [|reflexivity].
        match goal with |- _ * (?S / _) = _ => assert (ES : S = Rsum (fun qq => weight p (node_pos p axes j) (q_x (fst qq)) * carried p (q_v (snd qq)) (q_B (snd qq)) (q_x (fst qq)) (node_pos p axes j) k) (combine l l1)) end; [|rewrite ES; field; split; lra].
        apply Rsum_nth2; [rewrite combine_length, L1, Nat.min_id; lia|]. intros i d (q, q1) Hd Hqq.
        assert (Li : (i < length l)%nat) by (rewrite <- Ld; apply nth_error_Some; congruence).
        destruct (nth_error l i) as [qa|] eqn:Eq; [|apply nth_error_None in Eq; lia]. destruct (nth_error l1 i) as [qb|] eqn:Eq1; [|apply nth_error_None in Eq1; lia].
        rewrite (nth_error_combine _ _ _ _ _ _ _ Eq Eq1) in Hqq. assert (qa = q /\ qb = q1) as (-> & ->) by (split; congruence).
        destruct (nth_error lb i) as [b|] eqn:Ebi; [|apply nth_error_None in Ebi; lia].
        pose proof (F2_at _ _ _ _ _ FB i q b Eq Ebi) as Xb. destruct (F2_at _ _ _ _ _ FB1 i b q1 Ebi Eq1) as (Vb & Bb). cbv beta in Xb.
        assert (Xd : d_x d = q_x q).
        { assert (Q : nth_error (map d_x ds) i = Some (d_x d)) by (now apply map_nth_error). rewrite Dx in Q. unfold pack in Q; cbn [p_x] in Q. rewrite nth_error_map, Ebi in Q. cbn in Q. congruence. }
        assert (Vd : d_v d = q_v q1).
        { assert (Q : nth_error (map d_v ds) i = Some (d_v d)) by (now apply map_nth_error). rewrite Dv in Q. unfold pack in Q; cbn [p_v] in Q. rewrite nth_error_map, Ebi in Q. cbn in Q. congruence. }
        assert (Bd : flip_ratio p < 0 -> d_B d = q_B q1).
        { intros Hf. assert (Q : nth_error (map d_B ds) i = Some (d_B d)) by (now apply map_nth_error). rewrite (DB Hf) in Q. unfold pack in Q; cbn [p_B] in Q. rewrite nth_error_map, Ebi in Q. cbn in Q. congruence. }
        cbn [fst snd]. pose proof (nth_error_In _ _ Eq) as Hq. rewrite Xd. rewrite <- (proj1 (node_pick p Hdx axes (q_x q) j GO (Cov q Hq) Hj)).
        rewrite Rmult_comm, <- Rsum_scal. apply Rsum_ext. intros it Hit.
        destruct (act_or p Hdx axes GO l Cov Nt q it Hq Hit) as [Ha|(Ha & W0 & _)]; rewrite Ha; [|rewrite W0; ring].
        destruct (ind_cases j it) as [(Ei & Ej)|(Ei & Ej)]; rewrite Ei; [|rewrite (proj2 (Z.eqb_neq _ _) Ej); ring].
        rewrite (proj2 (Z.eqb_eq _ _) Ej), (carried_eq p Hdx d it k Hk (q_B q1) Bd), Vd, Xd, (stencil_pos p Hdx axes (q_x q) it GO (Cov q Hq) Hit), Ej, Nat2Z.id. ring.
    - eapply F2_impl; [|exact (F2_and _ _ _ _ _ _ KF St)]. intros q q1 Hq ((r & Ki & F1) & (c & L & o & (items & Si & VG) & Pl & O1 & O2 & O3 & _)).
      pose proof (ki_g _ _ _ _ _ _ _ _ _ _ _ Ki) as Ga. fold g2 axes in Ga. pose proof (Cov q Hq) as Cq.
      assert (Pic : forall k, (k < dim)%nat -> vget (q_pic r) k = interpolated p (combine (positions axes) g2) (q_x q) (fun _ nd => vget (nd_v nd) k)).
      { intros k Hk. rewrite (ga_pic _ _ _ _ _ _ _ Ga k Hk). apply (gather_w p Hdx axes (q_x q) g2 (fun _ nd => vget (nd_v nd) k)); auto. }
      exists (pos_hack p (vadd (q_x r) (lscale (s_dt s1) (q_pic r)))). split; [intros Hc; rewrite (fi_x _ _ _ _ F1); unfold pos_hack; now rewrite Hc|].
      split.
      + intros Hc k Hk. cbn [set_x q_x]. unfold pos_hack. rewrite Hc. rewrite (ki_x _ _ _ _ _ _ _ _ _ _ _ Ki). rewrite vget_add, vget_lscale by auto. rewrite Pic by auto. reflexivity.
      + intros Hc. assert (D2 : (2 <= dim)%nat) by (destruct (gl_dim (G := G)) as [->| ->]; lia). exists (vadd (q_x q) (lscale (s_dt s1) (q_pic r))). split; [intros k Hk; rewrite vget_add, vget_lscale by auto; rewrite Pic by auto; reflexivity|].
        cbn [set_x q_x]. rewrite (ki_x _ _ _ _ _ _ _ _ _ _ _ Ki). unfold pos_hack. rewrite Hc, !nofQ_R. set (y := vadd _ _). numR.
        destruct (Rltb_spec (8 / 10) (vget y 0)); split; intros; try lra; try reflexivity. rewrite !vget_set by lia. cbn [Nat.eqb]. split; [lra|]. split; [lra|].
        intros k Hk. rewrite !vget_set by lia. destruct k as [|[|k]]; try lia. reflexivity.
      + intros k Hk. cbn [set_x q_v]. rewrite (fi_v _ _ _ _ F1), (newv p r k Hk), blend_eq, (ki_v _ _ _ _ _ _ _ _ _ _ _ Ki), Pic by auto.
        unfold blend. destruct (Rlt_dec (flip_ratio p) (-1)) as [|Hf]; [reflexivity|].
        assert (Fl : vget (q_flip r) k = interpolated p (combine (positions axes) g2) (q_x q) (fun X nd => vget (nd_v nd) k - projected p lg X k)); [|now rewrite Fl].
        rewrite (ga_fl _ _ _ _ _ _ _ Ga ltac:(lra) k Hk). rewrite <- (gather_w p Hdx axes (q_x q) g2 (fun X nd => vget (nd_v nd) k - projected p lg X k)) by auto.
        apply Rsum_ext. intros it Hit. destruct (Req_dec (it_w it) 0) as [->|W0]; [ring|]. f_equal.
        rewrite (stencil_pos p Hdx axes (q_x q) it GO Cq Hit). unfold nd_at. destruct (stencil_cov p Hdx axes (q_x q) GO Cq) as (_ & _ & S). pose proof (sl_idx _ _ _ _ S it Hit) as Hi. pose proof (sl_w _ _ _ _ S it Hit) as Hw.
        apply FL; auto; [apply nth_error_nth'; lia|]. pose proof (Mj_ge p Hdx axes GO lg Covg q it (Inc q Hq) Hit). lra.
      + intros Hf i j Hi Hj. cbn [set_x q_B]. rewrite (fi_B _ _ _ _ F1), (ga_B _ _ _ _ _ _ _ Ga Hf i j Hi Hj).
        rewrite <- (gather_w p Hdx axes (q_x q) g2 (fun X nd => vget (nd_v nd) i * (vget X j - vget (q_x q) j))) by auto. apply Rsum_ext. intros; ring.
      + exists L, o. split; [|split; [|auto]].
        * intros i j Hi Hj. rewrite (VG i j Hi Hj). destruct (stencil_cov p Hdx axes (q_x q) GO Cq) as (_ & S2 & S). rewrite Si in S2. apply Ok_inj in S2. subst items.
          assert (L3 : Z.of_nat (length (s_nodes s1)) = prodlen axes).
          { pose proof (ru_rest _ _ _ _ _ _ _ _ Rn) as RR. destruct (use_musl p); [|rewrite (proj1 RR); exact Len].
            destruct RR as (g3 & rs3 & Hg & _ & Hn & _). rewrite Hn. fold g2 in Hg, Len. rewrite <- Len. f_equal. eapply musl_len; exact Hg. }
          rewrite (Rsum_ext (fun Xn : TV * Node R => vget (nd_v (snd Xn)) i * dweight p (fst Xn) (q_x q) j) (fun Xn : TV * Node R => dweight p (fst Xn) (q_x q) j * vget (nd_v (snd Xn)) i)) by (intros; ring).
          rewrite <- (gather_d p Hdx axes (q_x q) (s_nodes s1) (fun _ nd => vget (nd_v nd) i) j) by auto. apply Rsum_ext. intros it Hit.
          unfold node_v. rewrite rd_nd_at; [ring|]. rewrite L3. apply (sl_idx _ _ _ _ S it Hit).
        * cbv zeta. unfold start_hist, reset_dg in Pl. rewrite nofZ_R in Pl. exact Pl.
  Qed.
End StepLawOn.

Section Ring.
  Context {G : Geo R} {GL : GeoLaws G}.
  Variable p : Par R.
  Hypothesis Hdx : 0 < dx p.

  (** The ghosts are transferred like particles. *)
  Lemma p2g_ext : use_mibf p = false -> forall axes l gs sched g, thread_schedule sched (length (l ++ gs)) ->
    p2g p axes (ext l gs) sched g = p2g p axes (pack (l ++ gs)) sched g.
  Proof.
    intros Hu axes l gs sched g Sc. unfold p2g. rewrite !accumulate_total. f_equal. unfold total.
    assert (E : forall i, In i (concat sched) -> opsf p axes (ext l gs) i = opsf p axes (pack (l ++ gs)) i).
    { intros i Hi. unfold opsf, getd. cbv zeta. unfold ext, pack. cbn [p_x p_v p_tau p_B p_hist]. rewrite Hu, <- !map_app. reflexivity. }
    assert (M : mapM (opsf p axes (ext l gs)) (concat sched) = mapM (opsf p axes (pack (l ++ gs))) (concat sched)); [|now rewrite M].
    clear Sc. induction (concat sched) as [|i r IH]; auto. cbn [mapM]. rewrite (E i (or_introl eq_refl)), IH by (intros; apply E; now right). reflexivity.
  Qed.

  Lemma shift_zero : forall x : TV, shift_x x 0 = x.
  Proof. intros x. apply vext. intros k Hk. unfold shift_x. rewrite vget_set by auto. destruct (Nat.eqb_spec 0 k) as [<-|]; rewrite ?Nat.eqb_refl; [lra|]. destruct (Nat.eqb_spec k 0); [congruence|auto]. Qed.
  Lemma dim0 : (0 < dim)%nat.
  Proof. destruct gl_dim; lia. Qed.
  Lemma shift_0 : forall (x : TV) d, vget (shift_x x d) 0 = vget x 0 + d.
  Proof. intros. unfold shift_x. rewrite vget_set by apply dim0. now rewrite Nat.eqb_refl. Qed.
  Lemma shift_k : forall (x : TV) d k, (0 < k < dim)%nat -> vget (shift_x x d) k = vget x k.
  Proof. intros. unfold shift_x. rewrite vget_set by lia. destruct (Nat.eqb_spec 0 k); [lia|]. destruct (Nat.eqb_spec k 0); [lia|auto]. Qed.
  Lemma moved_zero : forall q, moved 0 q = q.
  Proof. intros q. unfold moved. rewrite shift_zero. now destruct q. Qed.

  Lemma upto_split : forall K, (1 <= K)%nat -> exists a b, upto K = a ++ [(-1)%Z; 0%Z; 1%Z] ++ b /\ (forall k, In k a -> (k <= -2)%Z) /\ (forall k, In k b -> (2 <= k)%Z).
  Proof.
    intros K HK. unfold upto. replace (2 * K + 1)%nat with ((K - 1) + (3 + (K - 1)))%nat by lia. rewrite seq_app, map_app, seq_app, map_app.
    eexists _, _. split; [|split].
    - f_equal. cbn [seq map Nat.add]. f_equal. f_equal; [lia|]. f_equal; [lia|]. f_equal; lia.
    - intros k Hk. apply in_map_iff in Hk. destruct Hk as (i & <- & Hi). apply in_seq in Hi. lia.
    - intros k Hk. apply in_map_iff in Hk. destruct Hk as (i & <- & Hi). apply in_seq in Hi. lia.
  Qed.

  Lemma Rsum_flat : forall X Y (f : Y -> R) (h : X -> list Y) l, Rsum f (flat_map h l) = Rsum (fun x => Rsum f (h x)) l.
  Proof. intros X Y f h l. induction l; cbn [flat_map Rsum]; auto. now rewrite Rsum_app, IHl. Qed.
  Lemma Rsum_exch : forall X Y (f : X -> Y -> R) l l', Rsum (fun x => Rsum (f x) l') l = Rsum (fun y => Rsum (fun x => f x y) l) l'.
  Proof. intros X Y f l l'. induction l as [|x l IH]; cbn [Rsum]. - symmetry. apply Rsum_zero. auto. - rewrite IH, <- Rsum_plus. reflexivity. Qed.

  Section Box.
    Hypothesis HL : 8 * dx p <= Lx p.
    (** A function that does not see what is 4 cells outside the box. *)
    Definition blind (f : P1 R -> R) : Prop := forall q, vget (q_x q) 0 <= - (4 * dx p) \/ Lx p + 4 * dx p <= vget (q_x q) 0 -> f q = 0.
    Definition image_of (q : P1 R) : list (P1 R) := ghost p 4 q.
    Lemma image_sum : forall f K q, (1 <= K)%nat -> blind f -> 0 <= vget (q_x q) 0 < Lx p ->
      Rsum (fun k => f (moved (IZR k * Lx p) q)) (upto K) = f q + Rsum f (image_of q).
    Proof.
      intros f K q HK B Hq. assert (L0 : 0 < Lx p) by lra. destruct (upto_split K HK) as (a & b & -> & Ha & Hb). rewrite !Rsum_app.
      rewrite (Rsum_zero _ a), (Rsum_zero _ b).
      2:{ intros k Hk. apply B. right. unfold moved. cbn [q_x]. rewrite shift_0. specialize (Hb k Hk). apply IZR_le in Hb. nra. }
      2:{ intros k Hk. apply B. left. unfold moved. cbn [q_x]. rewrite shift_0. specialize (Ha k Hk). apply IZR_le in Ha. nra. }
      cbn [Rsum]. rewrite Rmult_0_l, moved_zero. unfold image_of, ghost.
      destruct (image_cases G p (q_x q) Hdx HL Hq) as [(C & ->)|[(C & ->)|(C & ->)]]; cbn [Rsum].
      - rewrite (B (moved (IZR (-1) * Lx p) q)) by (left; unfold moved; cbn [q_x]; rewrite shift_0; lra). replace (IZR 1 * Lx p) with (Lx p) by ring. change (set_x q (shift_x (q_x q) (Lx p))) with (moved (Lx p) q). ring.
      - rewrite (B (moved (IZR 1 * Lx p) q)) by (right; unfold moved; cbn [q_x]; rewrite shift_0; lra). replace (IZR (-1) * Lx p) with (- Lx p) by ring. change (set_x q (shift_x (q_x q) (- Lx p))) with (moved (- Lx p) q). ring.
      - rewrite (B (moved (IZR (-1) * Lx p) q)) by (left; unfold moved; cbn [q_x]; rewrite shift_0; lra). rewrite (B (moved (IZR 1 * Lx p) q)) by (right; unfold moved; cbn [q_x]; rewrite shift_0; lra). ring.
    Qed.
    Lemma ghosts_flat : forall l sched, Permutation sched (seq 0 (length l)) -> Permutation (ghosts p 4 l sched) (flat_map image_of l).
    Proof.
      intros l sched P. apply Permutation_trans with (1 := ghosts_perm p 4 l _ _ P).
      assert (E : ghosts p 4 l (seq 0 (length l)) = flat_map image_of l); [|rewrite E; apply Permutation_refl].
      unfold ghosts. rewrite !flat_map_concat_map. f_equal. apply seq_map_nth. intros i q Ei. now rewrite Ei.
    Qed.
    Lemma copies_sum : forall f K l sched, (1 <= K)%nat -> blind f -> (forall q, In q l -> 0 <= vget (q_x q) 0 < Lx p) -> Permutation sched (seq 0 (length l)) ->
      Rsum f (copies p K l) = Rsum f (l ++ ghosts p 4 l sched).
    Proof.
      intros f K l sched HK B Hl P. unfold copies. rewrite Rsum_flat, Rsum_app, (Rsum_perm f _ _ (ghosts_flat l sched P)), Rsum_flat.
      rewrite (Rsum_ext _ (fun k => Rsum (fun q => f (moved (IZR k * Lx p) q)) l)) by (intros; apply Rsum_map).
      rewrite (Rsum_exch _ _ (fun k q => f (moved (IZR k * Lx p) q))), <- Rsum_plus. apply Rsum_ext. intros q Hq. apply image_sum; auto.
    Qed.

    Notation rad := (kernel_radius p).
    Lemma rad2 : rad <= 2 * dx p.
    Proof. unfold kernel_radius. destruct (spline p); lra. Qed.
    Section At.
      Variable X : TV.
      Hypothesis HX : - rad < vget X 0 < Lx p + rad.
      Lemma far_node : forall x : TV, vget x 0 <= - (4 * dx p) \/ Lx p + 4 * dx p <= vget x 0 -> rad < Rabs (vget x 0 - vget X 0).
      Proof. intros x H. pose proof rad2. unfold Rabs. destruct (Rcase_abs (vget x 0 - vget X 0)); lra. Qed.
      Lemma blind_weight : forall h : P1 R -> R, blind (fun q => weight p X (q_x q) * h q).
      Proof. intros h q H. rewrite (weight_outside p Hdx X (q_x q) 0 dim0); [ring|]. pose proof (far_node _ H). lra. Qed.
      Lemma blind_mass : blind (fun q => weight p X (q_x q)).
      Proof. intros q H. apply (weight_outside p Hdx X (q_x q) 0 dim0). pose proof (far_node _ H). lra. Qed.
      Lemma blind_force : forall k, blind (fun q => sum_axes (fun j => mget (q_tau q) k j * dweight p X (q_x q) j)).
      Proof. intros k q H. unfold sum_axes. apply Rsum_zero. intros j Hj. apply in_seq in Hj. rewrite (dweight_outside p Hdx X (q_x q) 0 j dim0) by (try lia; now apply far_node). ring. Qed.

      Variables (l : list (P1 R)) (sched : list nat) (K : nat).
      Hypothesis HK : (1 <= K)%nat.
      Hypothesis Hl : forall q, In q l -> 0 <= vget (q_x q) 0 < Lx p.
      Hypothesis Ps : Permutation sched (seq 0 (length l)).
      Lemma ring_projected : forall k, projected p (copies p K l) X k = projected p (l ++ ghosts p 4 l sched) X k.
      Proof.
        intros k. unfold projected. rewrite (copies_sum (fun q => weight p X (q_x q)) K l sched HK blind_mass Hl Ps).
        rewrite (copies_sum (fun q => weight p X (q_x q) * carried p (q_v q) (q_B q) (q_x q) X k) K l sched HK (blind_weight _) Hl Ps). reflexivity.
      Qed.
      Lemma ring_node : use_mibf p = false -> forall pls dt grav nd, node_law p pls dt grav (l ++ ghosts p 4 l sched) X nd -> node_law p pls dt grav (copies p K l) X nd.
      Proof.
        intros Hu pls dt grav nd [M E Nw]. split.
        - now rewrite (copies_sum (fun q => weight p X (q_x q)) K l sched HK blind_mass Hl Ps).
        - exact E.
        - intros Hp. destruct (Nw Hp) as (free & mu & A & _ & B). exists free, mu. split; [|split; [congruence|exact B]].
          intros k Hk. rewrite ring_projected, (A k Hk). unfold internal.
          rewrite (copies_sum (fun q => sum_axes (fun j => mget (q_tau q) k j * dweight p X (q_x q) j)) K l sched HK (blind_force k) Hl Ps). reflexivity.
      Qed.
    End At.
  End Box.
End Ring.

(** ** Fields known at the nodes that a particle sees *)
Section Known.
  Context {G : Geo R} {GL : GeoLaws G}.
  Variable p : Par R.
  Hypothesis Hdx : 0 < dx p.
  Variables (axes : list (Axis R)) (x : TV) (g : list (Node R)).
  Hypothesis GO : GridOk p axes.
  Hypothesis Cx : Covered p axes x.
  Hypothesis Lg : length g = length (positions axes).
  Definition seen_by (Q : TV -> Node R -> Prop) : Prop :=
    forall j X nd, nth_error (positions axes) j = Some X -> nth_error g j = Some nd -> 0 < weight p X x -> Q X nd.
  Lemma seen_at : forall Q it, seen_by Q -> In it (items_of p axes x) -> it_w it <> 0 -> Q (it_x it) (nd_at g it).
  Proof.
    intros Q it Hs Hi Hw. destruct (stencil_cov p Hdx axes x GO Cx) as (_ & _ & S). pose proof (sl_idx _ _ _ _ S it Hi) as Hx. pose proof (sl_w _ _ _ _ S it Hi) as Hp.
    pose proof (pos_len p axes GO) as PL. apply (Hs (Z.to_nat (it_idx it))).
    - rewrite (stencil_pos p Hdx axes x it GO Cx Hi). apply pos_at; auto. lia.
    - unfold nd_at. apply nth_error_nth'. lia.
    - rewrite <- (item_weight p Hdx axes x it GO Cx Hi). lra.
  Qed.
  Lemma interp_value : forall (f : TV -> Node R -> R) c, seen_by (fun X nd => f X nd = c) -> interpolated p (combine (positions axes) g) x f = c.
  Proof.
    intros f c Hs. pose proof (pos_len p axes GO) as PL. rewrite <- (gather_w p Hdx axes x) by (auto; lia). destruct (stencil_cov p Hdx axes x GO Cx) as (_ & _ & S).
    rewrite (Rsum_ext _ (fun it => c * it_w it)).
    - rewrite Rsum_scal. transitivity (c * 1); [f_equal; exact (sl_1 _ _ _ _ S)|ring].
    - intros it Hit. destruct (Req_dec (it_w it) 0) as [->|Hw]; [ring|]. pose proof (seen_at _ it Hs Hit Hw) as E. cbv beta in E. rewrite E. ring.
  Qed.
  Lemma grad_value : (spline p = Deg1 -> off_lines p axes x) -> forall (f : TV -> Node R -> R) a b k m, (k < dim)%nat -> (m < dim)%nat ->
    seen_by (fun X nd => f X nd = a + b * (vget X m - vget x m)) -> Rsum (fun Xn => dweight p (fst Xn) x k * f (fst Xn) (snd Xn)) (combine (positions axes) g) = if Nat.eqb k m then b else 0.
  Proof.
    intros Off f a b k m Hk Hm Hs. pose proof (pos_len p axes GO) as PL. rewrite <- (gather_d p Hdx axes x g f k) by (auto; lia). destruct (stencil_cov p Hdx axes x GO Cx) as (_ & _ & S).
    rewrite (Rsum_ext _ (fun it => a * vget (it_g it) k + b * (vget (it_g it) k * (vget (it_x it) m - vget x m)))).
    - rewrite Rsum_plus, !Rsum_scal, (sl_g _ _ _ _ S Off k Hk), (sl_gx _ _ _ _ S Off k m Hk Hm). destruct (Nat.eqb k m); ring.
    - intros it Hit. destruct (Req_dec (it_w it) 0) as [Hw|Hw]; [rewrite (sl_0 _ _ _ _ S it k Hit Hk Hw); ring|]. pose proof (seen_at _ it Hs Hit Hw) as E. cbv beta in E. rewrite E. ring.
  Qed.
End Known.
