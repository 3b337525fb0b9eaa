(** * MuslProofs: the MUSL re-projection as a sum of contributions. *)
From Coq Require Import Reals ZArith Lra Lia List Bool Permutation.
From Verif Require Import Num NumR Tools Lin Types Remesh Objects Transfer Save Spec LinProofs ResProofs
  KernelProofs GridProofs StencilProofs IndexProofs AccumProofs GradProofs P2GProofs ConsProofs.
Import ListNotations.
Local Open Scope R_scope.

Section Musl.
  Context {G : Geo R} {GL : GeoLaws G}.
  Variable p : Par R.

  Definition mplus (a b : Node R) : Node R :=
    mkNode (nd_m a) (vadd (nd_v a) (nd_v b)) (nd_flip a) (nd_f a) (nd_fr a).
  Definition mval (k : nat) (a : Node R) : R := if Nat.ltb k dim then vget (nd_v a) k else 0.
  Definition mkeep (a : Node R) := (nd_m a, nd_flip a, nd_f a, nd_fr a).
  Lemma mplus_laws : AddLaws _ _ _ mval mkeep mplus zero_node.
  Proof.
    split.
    - intros k a b. unfold mval, mplus; cbn [nd_v]. destruct (Nat.ltb_spec k dim); [|lra]. autorewrite with geo. auto.
    - reflexivity.
    - intros k. unfold mval, zero_node; cbn [nd_v]. destruct (Nat.ltb_spec k dim); auto. autorewrite with geo; auto.
    - intros [m v fl f r] [m' v' fl' f' r'] H Hk. unfold mkeep in Hk. cbn [nd_m nd_flip nd_f nd_fr] in Hk. injection Hk as -> -> -> ->.
      f_equal. apply vext. intros k Hk. specialize (H k). unfold mval in H. cbn [nd_v] in H. destruct (Nat.ltb_spec k dim); [auto|lia].
  Qed.

  Definition musl_delta (d : PD) (it : Item R) : Node R := musl_node p (d_x d) (d_v d) (d_B d) it zero_node.
  Definition getm (P : Particles R) (i : nat) : res PD :=
    let z := Z.of_nat i in
    xp <- rd (p_x P) z ;;
    vp <- rd (p_v P) z ;;
    B <- (if (flip_ratio p <? nofZ 0)%num then rd (p_B P) z else Ok mzero) ;;
    Ok (mkPD xp vp B mzero 0).
  Definition mops (d : PD) (items : list (Item R)) : list (Z * Node R) :=
    map (fun it => (it_idx it, musl_delta d it)) (filter act items).
  Definition mopsf (axes : list (Axis R)) (P : Particles R) (i : nat) : res (list (Z * Node R)) :=
    d <- getm P i ;; items <- stencil base_p2g p axes (d_x d) ;; Ok (mops d items).
  Lemma musl_node_add : forall d it nd, musl_node p (d_x d) (d_v d) (d_B d) it nd = mplus nd (musl_delta d it).
  Proof.
    intros d it nd. apply (ad_ext _ _ _ _ _ _ _ mplus_laws); [|reflexivity].
    intros k. rewrite (ad_val _ _ _ _ _ _ _ mplus_laws). unfold musl_delta, musl_node, zero_node, mval. cbn [nd_v].
    destruct (Nat.ltb_spec k dim); [|lra]. destruct (_ <? _)%num; autorewrite with geo; numR; lra.
  Qed.
  Lemma musl_particle_ops : forall axes P nodes i,
    musl_particle p axes P nodes i = one _ mplus (mopsf axes P) nodes i.
  Proof.
    intros. unfold musl_particle, one, mopsf, getm. cbv zeta.
    destruct (rd (p_x P) (Z.of_nat i)) as [xp| |]; simpl; auto.
    destruct (rd (p_v P) (Z.of_nat i)) as [vp| |]; simpl; auto.
    match goal with |- bind ?r _ = _ => destruct r as [B| |]; simpl; auto end.
    destruct (stencil base_p2g p axes xp) as [items| |]; simpl; auto.
    unfold adds, mops. rewrite foldM_map. rewrite <- foldM_filter.
    apply foldM_ext. intros s it _. unfold musl_item, act, add_at. cbn [fst snd]. numR.
    destruct (Rltb w_min (it_w it)); auto. apply upd_ext. intros nd.
    apply (musl_node_add (mkPD xp vp B mzero 0)).
  Qed.
  Lemma mopsf_nf : forall axes P i, mopsf axes P i <> NoFuel.
  Proof.
    intros. unfold mopsf. apply bind_nf.
    - unfold getm. repeat (apply bind_nf; [try apply rd_nf; try (destruct (_ : bool); try apply rd_nf; discriminate)|intros]); try discriminate.
    - intros d _. apply bind_nf; [apply stencil_nf, base_p2g_nf|]. discriminate.
  Qed.
  Theorem musl_total : forall axes P sched nodes,
    musl_grid p axes P sched nodes
    = (g <- total _ mplus (mopsf axes P) (concat sched) (map (fun nd => set_nv nd vzero) nodes) ;; Ok (map (musl_finish_node p) g)).
  Proof.
    intros. unfold musl_grid.
    rewrite <- (accum_total _ _ _ mval mkeep mplus zero_node mplus_laws (mopsf axes P) (mopsf_nf axes P)
      sched (map (fun nd => set_nv nd vzero) nodes) (length nodes)) by apply map_length.
    unfold accum. f_equal. apply foldM_ext. intros g th _. unfold thread.
    rewrite (foldM_ext _ _ (musl_particle p axes P) (one _ mplus (mopsf axes P))) by (intros; apply musl_particle_ops).
    destruct (foldM _ _ _); simpl; auto. f_equal. unfold musl_merge, mergeN. apply map_ext. intros [a b]. reflexivity.
  Qed.
  Theorem musl_sched_indep : forall axes P s1 s2 nodes, Permutation (concat s1) (concat s2) ->
    musl_grid p axes P s1 nodes = musl_grid p axes P s2 nodes.
  Proof.
    intros. rewrite !musl_total.
    now rewrite (total_perm _ _ _ mval mkeep mplus zero_node mplus_laws (mopsf axes P) (mopsf_nf axes P) _ _ _ H).
  Qed.

  (** ** The result as a sum *)
  Hypothesis Hdx : 0 < dx p.
  Definition allmops (axes : list (Axis R)) (ds : list PD) : list (Z * Node R) :=
    flat_map (fun d => mops d (items_of p axes (d_x d))) ds.
  Lemma madds_exists : forall ops g, Forall (fun o => (0 <= fst o < Z.of_nat (length g))%Z) ops ->
    exists g', adds _ mplus ops g = Ok g'.
  Proof.
    induction ops as [|o ops IH]; intros g F.
    - exists g; reflexivity.
    - inversion F as [|? ? F1 F2]; subst.
      destruct (upd_Ok g (fst o) (fun a => mplus a (snd o)) F1) as (g1 & E1 & L1 & _).
      destruct (IH g1) as [g' E']; [rewrite L1; auto|]. exists g'. unfold adds. simpl. unfold add_at at 1. rewrite E1. exact E'.
  Qed.
  Lemma getm_exists : forall P n, length (p_x P) = n -> length (p_v P) = n ->
    (flip_ratio p < 0 -> length (p_B P) = n) ->
    exists ds, mapM (getm P) (seq 0 n) = Ok ds /\ length ds = n /\
      map d_x ds = p_x P /\ map d_v ds = p_v P /\ (flip_ratio p < 0 -> map d_B ds = p_B P).
  Proof.
    intros P n Lx Lv LB.
    assert (H : forall i, In i (seq 0 n) -> exists d, getm P i = Ok d /\ nth_error (p_x P) i = Some (d_x d) /\
      nth_error (p_v P) i = Some (d_v d) /\ (flip_ratio p < 0 -> nth_error (p_B P) i = Some (d_B d))).
    { intros i Hi. apply in_seq in Hi. unfold getm.
      destruct (rd_lt _ (p_x P) i) as (x & -> & Ex); [lia|].
      destruct (rd_lt _ (p_v P) i) as (v & -> & Ev); [lia|]. cbn [bind]. rewrite nofZ_R. numR.
      assert (HB : exists B, (if Rltb (flip_ratio p) 0 then rd (p_B P) (Z.of_nat i) else Ok mzero) = Ok B /\
        (flip_ratio p < 0 -> nth_error (p_B P) i = Some B)).
      { destruct (Rltb_spec (flip_ratio p) 0) as [Hf|Hf].
        - destruct (rd_lt _ (p_B P) i) as (B & EB & NB); [rewrite LB; auto; lia|]. eauto.
        - exists mzero. split; auto. intros; lra. }
      destruct HB as (B & -> & NB). cbn [bind]. eexists. split; [reflexivity|]. cbn [d_x d_v d_B]. auto 10. }
    assert (E : exists ds, mapM (getm P) (seq 0 n) = Ok ds).
    { clear - H. revert H. generalize (seq 0 n). induction l; intros H; [exists []; reflexivity|].
      destruct (H a (or_introl eq_refl)) as (d & Ed & _). destruct IHl as [ds Eds]; [intros; apply H; now right|].
      exists (d :: ds). simpl. rewrite Ed, Eds. reflexivity. }
    destruct E as [ds E]. exists ds. split; auto. pose proof (mapM_length _ _ _ E) as L. rewrite seq_length in L.
    assert (Q : forall i d, nth_error ds i = Some d -> In i (seq 0 n) /\ getm P i = Ok d).
    { intros i d Hd. assert (Hi : (i < n)%nat) by (rewrite <- L; apply nth_error_Some; congruence).
      split; [apply in_seq; lia|]. apply mapM_Ok in E.
      destruct (Forall2_nth_error _ _ _ _ _ E i i) as (y & Ey & Hy).
      - rewrite (nth_error_nth' _ 0%nat) by (rewrite seq_length; auto). now rewrite seq_nth.
      - congruence. }
    split; auto.
    repeat split; try (intros Hc); apply map_nth_list; rewrite ?map_length; try congruence; try (rewrite ?LB by auto; congruence);
      intros i d Hd; destruct (Q i d Hd) as (Hi & Ed); destruct (H i Hi) as (d' & Ed' & Q1 & Q2 & Q3);
      rewrite Ed in Ed'; injection Ed' as <-; auto.
  Qed.
  Lemma delta_mv : forall d it k, (k < dim)%nat -> mval k (musl_delta d it) = it_w it * (vget (d_v d) k + affine p d it k).
  Proof.
    intros d it k Hk. unfold mval, musl_delta, musl_node, zero_node, affine; cbn [nd_v].
    destruct (Nat.ltb_spec k dim); [|lia]. rewrite nofZ_R. numR.
    destruct (Rltb (flip_ratio p) 0); autorewrite with geo; numR; ring.
  Qed.

  (** One node after MUSL. *)
  Theorem musl_run : forall axes P n sched nodes, GridOk p axes ->
    length (p_x P) = n -> length (p_v P) = n -> (flip_ratio p < 0 -> length (p_B P) = n) ->
    (forall x, In x (p_x P) -> in_grid p axes x) -> thread_schedule sched n -> Z.of_nat (length nodes) = prodlen axes ->
    exists ds g, length ds = n /\ map d_x ds = p_x P /\ map d_v ds = p_v P /\ (flip_ratio p < 0 -> map d_B ds = p_B P) /\
      (forall d, In d ds -> Covered p axes (d_x d)) /\
      musl_grid p axes P sched nodes = Ok g /\ length g = length nodes /\
      forall j nd, nth_error nodes j = Some nd -> exists nd', nth_error g j = Some nd' /\
        nd_m nd' = nd_m nd /\ nd_flip nd' = nd_flip nd /\ nd_f nd' = nd_f nd /\ nd_fr nd' = nd_fr nd /\
        (0 < nd_m nd -> forall k, (k < dim)%nat -> vget (nd_v nd') k =
           Rsum (fun d => Rsum (fun it => if act it then if (it_idx it =? Z.of_nat j)%Z
             then it_w it * (vget (d_v d) k + affine p d it k) else 0 else 0) (items_of p axes (d_x d))) ds
           / (nd_m nd / particle_mass p)) /\
        (nd_m nd <= 0 -> nd_v nd' = vzero).
  Proof.
    intros axes P n sched nodes GO Lx Lv LB IG Sc L.
    destruct (getm_exists P n Lx Lv LB) as (ds & E & Ld & X & V & B).
    assert (C : forall d, In d ds -> Covered p axes (d_x d)).
    { intros d Hd. apply in_grid_covered; auto. apply IG. rewrite <- X. apply in_map; auto. }
    rewrite musl_total.
    rewrite (total_perm _ _ _ mval mkeep mplus zero_node mplus_laws (mopsf axes P) (mopsf_nf axes P) _ _ _ Sc).
    assert (EO : mapM (mopsf axes P) (seq 0 n) = Ok (map (fun d => mops d (items_of p axes (d_x d))) ds)).
    { revert E C. clear - GO Hdx GL. generalize (seq 0 n). intros l. revert ds. induction l as [|i l IH]; simpl; intros ds ED C.
      - injection ED as <-. reflexivity.
      - invb. unfold mopsf at 1. rewrite E. simpl.
        destruct (stencil_cov p Hdx axes _ GO (C x (or_introl eq_refl))) as (-> & _). simpl.
        erewrite IH; eauto; [|intros; apply C; now right]. reflexivity. }
    unfold total. rewrite EO. cbn [bind]. rewrite <- flat_map_concat_map. fold (allmops axes ds).
    set (g0 := map (fun nd => set_nv nd vzero) nodes).
    assert (F : Forall (fun o => (0 <= fst o < Z.of_nat (length g0))%Z) (allmops axes ds)).
    { apply Forall_forall. intros o Ho. unfold allmops in Ho. apply in_flat_map in Ho. destruct Ho as (d & Hd & Ho).
      unfold mops in Ho. apply in_map_iff in Ho. destruct Ho as (it & <- & Hit). apply filter_In in Hit. cbn [fst].
      unfold g0. rewrite map_length, L. destruct (stencil_cov p Hdx axes _ GO (C d Hd)) as (_ & _ & S). apply (sl_idx _ _ _ _ S). tauto. }
    destruct (madds_exists _ _ F) as [g E']. rewrite E'. cbn [bind].
    apply (adds_Ok _ _ _ mval mkeep mplus zero_node mplus_laws) in E'. destruct E' as (_ & Lg & Hg).
    exists ds, (map (musl_finish_node p) g). repeat (split; [solve [auto]|]). split.
    { rewrite map_length, Lg. unfold g0. apply map_length. }
    intros j nd Hj. destruct (Hg j (set_nv nd vzero)) as (a & Ea & Kp & Va).
    { unfold g0. rewrite nth_error_map, Hj. reflexivity. }
    exists (musl_finish_node p a). rewrite nth_error_map, Ea. split; auto.
    unfold mkeep in Kp. cbn [set_nv nd_m nd_flip nd_f nd_fr] in Kp. injection Kp as K1 K2 K3 K4.
    unfold musl_finish_node. cbn [set_nv nd_m nd_flip nd_f nd_fr nd_v]. rewrite K1, K2, K3, K4. repeat (split; [solve [auto]|]).
    rewrite nofZ_R. numR. split.
    - intros Hm k Hk. destruct (Rltb_spec 0 (nd_m nd)); [|lra]. autorewrite with geo. numR. f_equal.
      specialize (Va k). unfold mval at 1 2 in Va. destruct (Nat.ltb_spec k dim); [|lia]. rewrite Va.
      cbn [set_nv nd_v]. autorewrite with geo. rewrite Rplus_0_l. unfold allmops. rewrite Rsum_flat_map. apply Rsum_ext. intros d Hd.
      unfold mops. rewrite Rsum_map, Rsum_filter. apply Rsum_ext. intros it _. unfold at_j. cbn [fst snd]. rewrite delta_mv by auto. reflexivity.
    - intros Hm. destruct (Rltb_spec 0 (nd_m nd)); [lra|reflexivity].
  Qed.
End Musl.
