(** * P2GProofs: particle-to-grid as a sum of contributions. *)
From Coq Require Import Reals ZArith Lra Lia List Bool Permutation.
From Verif Require Import Num NumR Tools Lin Types Remesh Objects Transfer Save Spec LinProofs ResProofs
  KernelProofs GridProofs StencilProofs IndexProofs AccumProofs.
Import ListNotations.
Local Open Scope R_scope.

Section P2G.
  Context {G : Geo R} {GL : GeoLaws G}.
  Variable p : Par R.

  Inductive NC := Cm | Cv (k : nat) | Cf (k : nat) | Cr.
  Definition nval (c : NC) (a : Node R) : R :=
    match c with
    | Cm => nd_m a
    | Cv k => if Nat.ltb k dim then vget (nd_v a) k else 0
    | Cf k => if Nat.ltb k dim then vget (nd_f a) k else 0
    | Cr => if use_mibf p then nd_fr a else 0
    end.
  Definition nkeep (a : Node R) := (nd_flip a, if use_mibf p then 0 else nd_fr a).
  Lemma node_add_laws : AddLaws _ _ _ nval nkeep (node_add p) zero_node.
  Proof.
    split.
    - intros [|k|k|] a b; unfold nval, node_add; cbn [nd_m nd_v nd_f nd_fr nd_flip]; auto.
      + destruct (Nat.ltb_spec k dim); [|lra]. autorewrite with geo. auto.
      + destruct (Nat.ltb_spec k dim); [|lra]. autorewrite with geo. auto.
      + destruct (use_mibf p); auto. lra.
    - intros a b. unfold nkeep, node_add; cbn [nd_flip nd_fr]. destruct (use_mibf p); auto.
    - intros [|k|k|]; unfold nval, zero_node; cbn [nd_m nd_v nd_f nd_fr]; rewrite ?nofZ_R; auto.
      + destruct (Nat.ltb_spec k dim); auto. autorewrite with geo; auto.
      + destruct (Nat.ltb_spec k dim); auto. autorewrite with geo; auto.
      + destruct (use_mibf p); auto.
    - intros [m v fl f r] [m' v' fl' f' r'] H Hk. unfold nkeep in Hk. cbn [nd_flip nd_fr] in Hk. injection Hk as K1 K2.
      pose proof (H Cm) as Hm. pose proof (H Cr) as Hr. cbn [nval nd_m nd_fr] in Hm, Hr. subst m' fl'.
      assert (v = v').
      { apply vext. intros k Hk. pose proof (H (Cv k)) as Hv. cbn [nval nd_v] in Hv.
        destruct (Nat.ltb_spec k dim); [auto|lia]. }
      assert (f = f').
      { apply vext. intros k Hk. pose proof (H (Cf k)) as Hv. cbn [nval nd_f] in Hv.
        destruct (Nat.ltb_spec k dim); [auto|lia]. }
      subst. f_equal. destruct (use_mibf p); auto.
  Qed.

  (** What one particle contributes. *)
  Record PD := mkPD { d_x : TV; d_v : TV; d_B : TM; d_tau : TM; d_mui : R }.
  Definition act (it : Item R) : bool := Rltb w_min (it_w it).
  Definition p2g_delta (d : PD) (it : Item R) : Node R :=
    p2g_node p (d_x d) (d_v d) (d_B d) (d_tau d) (d_mui d) it zero_node.
  Definition getd (P : Particles R) (i : nat) : res PD :=
    let z := Z.of_nat i in
    xp <- rd (p_x P) z ;;
    tau <- rd (p_tau P) z ;;
    vp <- rd (p_v P) z ;;
    B <- (if (flip_ratio p <? nofZ 0)%num then rd (p_B P) z else Ok mzero) ;;
    mui <- (if use_mibf p then h <- rd (p_hist P) z ;; Ok (h_muI h) else Ok (nofZ 0)) ;;
    Ok (mkPD xp vp B tau mui).
  Definition dops (d : PD) (items : list (Item R)) : list (Z * Node R) :=
    map (fun it => (it_idx it, p2g_delta d it)) (filter act items).
  Definition opsf (axes : list (Axis R)) (P : Particles R) (i : nat) : res (list (Z * Node R)) :=
    d <- getd P i ;; items <- stencil base_p2g p axes (d_x d) ;; Ok (dops d items).

  Lemma p2g_node_add : forall d it nd,
    p2g_node p (d_x d) (d_v d) (d_B d) (d_tau d) (d_mui d) it nd = node_add p nd (p2g_delta d it).
  Proof.
    intros d it nd. apply (ad_ext _ _ _ _ _ _ _ node_add_laws).
    - intros c. rewrite (ad_val _ _ _ _ _ _ _ node_add_laws). unfold p2g_delta, p2g_node, zero_node.
      destruct c; unfold nval; cbn [nd_m nd_v nd_f nd_fr]; rewrite ?nofZ_R; numR; try lra.
      + destruct (Nat.ltb_spec k dim); [|lra]. destruct (Rltb _ _); autorewrite with geo; numR; lra.
      + destruct (Nat.ltb_spec k dim); [|lra]. autorewrite with geo; numR; lra.
      + destruct (use_mibf p); lra.
    - unfold nkeep, node_add, p2g_node; cbn [nd_flip nd_fr]. destruct (use_mibf p); auto.
  Qed.
  Lemma foldM_ext : forall X S (f g : S -> X -> res S) l s, (forall s x, In x l -> f s x = g s x) -> foldM f l s = foldM g l s.
  Proof. induction l; simpl; intros; auto. rewrite H by auto. destruct (g s a); simpl; auto. Qed.
  Lemma foldM_filter : forall X S (f : S -> X -> res S) (b : X -> bool) l s,
    foldM (fun s x => if b x then f s x else Ok s) l s = foldM f (filter b l) s.
  Proof. induction l; simpl; intros; auto. destruct (b a); simpl; auto. destruct (f s a); simpl; auto. Qed.
  Lemma foldM_map : forall X Y S (f : S -> Y -> res S) (h : X -> Y) l s,
    foldM f (map h l) s = foldM (fun s x => f s (h x)) l s.
  Proof. induction l; simpl; intros; auto. destruct (f s (h a)); simpl; auto. Qed.
  Lemma upd_ext : forall X (l : list X) z f g, (forall x, f x = g x) -> upd l z f = upd l z g.
  Proof.
    intros X l z f g H. unfold upd. destruct (z <? 0)%Z; auto.
    replace (upd_nat l (Z.to_nat z) g) with (upd_nat l (Z.to_nat z) f); auto.
    generalize (Z.to_nat z). induction l; intros [|n]; simpl; auto; [now rewrite H|now rewrite IHl].
  Qed.

  Lemma particle_ops : forall axes P nodes i,
    p2g_particle p axes P nodes i = one _ (node_add p) (opsf axes P) nodes i.
  Proof.
    intros. unfold p2g_particle, one, opsf, getd. cbv zeta.
    destruct (rd (p_x P) (Z.of_nat i)) as [xp| |]; simpl; auto.
    destruct (rd (p_tau P) (Z.of_nat i)) as [tau| |]; simpl; auto.
    destruct (rd (p_v P) (Z.of_nat i)) as [vp| |]; simpl; auto.
    match goal with |- bind ?r _ = _ => destruct r as [B| |]; simpl; auto end.
    match goal with |- bind ?r _ = _ => destruct r as [mui| |]; simpl; auto end.
    destruct (stencil base_p2g p axes xp) as [items| |]; simpl; auto.
    unfold adds, dops. rewrite foldM_map. rewrite <- foldM_filter.
    apply foldM_ext. intros s it _. unfold p2g_item, act, add_at. cbn [fst snd]. numR.
    destruct (Rltb w_min (it_w it)); auto. apply upd_ext. intros nd.
    apply (p2g_node_add (mkPD xp vp B tau mui)).
  Qed.
  Lemma ax_items_nf : forall a x b, ax_items p a x b <> NoFuel.
  Proof.
    intros. apply mapM_nf. intros. unfold ax_item. apply bind_nf; [apply rd_nf|discriminate].
  Qed.
  Lemma stencil_nf : forall base axes x, (forall a y, base p a y <> NoFuel) -> stencil base p axes x <> NoFuel.
  Proof.
    intros base axes x H. unfold stencil. destruct axes as [|a [|b [|c [|]]]]; try discriminate;
    repeat (apply bind_nf; [apply H || apply ax_items_nf|intros]); discriminate.
  Qed.
  Lemma to_int_nf : forall x : R, to_int x <> NoFuel.
  Proof. intros. unfold to_int. destruct (ntrunc x) as [z|]; [destruct (int_ok z)|]; discriminate. Qed.
  Lemma to_uint_nf : forall x : R, to_uint x <> NoFuel.
  Proof. intros. unfold to_uint. destruct (ntrunc x) as [z|]; [destruct (uint_ok z)|]; discriminate. Qed.
  Lemma base_p2g_nf : forall a y, base_p2g p a y <> NoFuel.
  Proof. intros. unfold base_p2g. apply bind_nf; [apply to_int_nf|]. intros z _. destruct (int_ok _); discriminate. Qed.
  Lemma base_g2p_nf : forall a y, base_g2p p a y <> NoFuel.
  Proof. intros. apply to_uint_nf. Qed.
  Lemma opsf_nf : forall axes P i, opsf axes P i <> NoFuel.
  Proof.
    intros. unfold opsf. apply bind_nf.
    - unfold getd. repeat (apply bind_nf; [try apply rd_nf; try (destruct (_ : bool); try apply rd_nf; discriminate)|intros]); try discriminate.
      destruct (use_mibf p); [|discriminate]. apply bind_nf; [apply rd_nf|discriminate].
    - intros d _. apply bind_nf; [apply stencil_nf, base_p2g_nf|]. discriminate.
  Qed.

  Theorem accumulate_total : forall axes P sched nodes,
    p2g_accumulate p axes P sched nodes = total _ (node_add p) (opsf axes P) (concat sched) nodes.
  Proof.
    intros. rewrite <- (accum_total _ _ _ nval nkeep (node_add p) zero_node node_add_laws (opsf axes P) (opsf_nf axes P)
      sched nodes (length nodes) eq_refl).
    unfold p2g_accumulate, accum. apply foldM_ext. intros g th _. unfold p2g_thread, thread.
    erewrite (foldM_ext _ _ (p2g_particle p axes P)); [reflexivity|]. intros. apply particle_ops.
  Qed.
  Theorem p2g_sched_indep : forall axes P s1 s2 nodes, Permutation (concat s1) (concat s2) ->
    p2g p axes P s1 nodes = p2g p axes P s2 nodes.
  Proof.
    intros. unfold p2g. rewrite !accumulate_total.
    now rewrite (total_perm _ _ _ nval nkeep (node_add p) zero_node node_add_laws (opsf axes P) (opsf_nf axes P) _ _ nodes H).
  Qed.

  (** ** The result as a sum *)
  Hypothesis Hdx : 0 < dx p.
  Definition allops (axes : list (Axis R)) (ds : list PD) : list (Z * Node R) :=
    flat_map (fun d => dops d (items_of p axes (d_x d))) ds.
  Lemma adds_exists : forall ops g, Forall (fun o => (0 <= fst o < Z.of_nat (length g))%Z) ops ->
    exists g', adds _ (node_add p) ops g = Ok g'.
  Proof.
    induction ops as [|o ops IH]; intros g F.
    - exists g; reflexivity.
    - inversion F as [|? ? F1 F2]; subst.
      destruct (upd_Ok g (fst o) (fun a => node_add p a (snd o)) F1) as (g1 & E1 & L1 & _).
      destruct (IH g1) as [g' E']; [rewrite L1; auto|]. exists g'. unfold adds. simpl. unfold add_at at 1. rewrite E1. exact E'.
  Qed.
  Lemma opsf_cov : forall axes P i d, GridOk p axes -> getd P i = Ok d -> Covered p axes (d_x d) ->
    opsf axes P i = Ok (dops d (items_of p axes (d_x d))).
  Proof.
    intros axes P i d GO E C. unfold opsf. rewrite E. simpl.
    destruct (stencil_cov p Hdx axes _ GO C) as (-> & _). reflexivity.
  Qed.
  Theorem accumulate_rep : forall axes P n ds sched nodes, GridOk p axes ->
    mapM (getd P) (seq 0 n) = Ok ds -> (forall d, In d ds -> Covered p axes (d_x d)) ->
    Permutation (concat sched) (seq 0 n) -> Z.of_nat (length nodes) = prodlen axes ->
    exists nodes', p2g_accumulate p axes P sched nodes = Ok nodes' /\
      Acc _ _ _ nval nkeep nodes (allops axes ds) nodes'.
  Proof.
    intros axes P n ds sched nodes GO ED C Pm L. rewrite accumulate_total.
    rewrite (total_perm _ _ _ nval nkeep (node_add p) zero_node node_add_laws (opsf axes P) (opsf_nf axes P) _ _ nodes Pm).
    assert (EO : mapM (opsf axes P) (seq 0 n) = Ok (map (fun d => dops d (items_of p axes (d_x d))) ds)).
    { revert ED C. generalize (seq 0 n). intros l. revert ds. induction l as [|i l IH]; simpl; intros ds ED C.
      - injection ED as <-. reflexivity.
      - invb. erewrite opsf_cov; eauto; [|apply C; now left]. simpl. erewrite IH; eauto; [|intros; apply C; now right]. reflexivity. }
    unfold total. rewrite EO. simpl. rewrite <- flat_map_concat_map. fold (allops axes ds).
    destruct (adds_exists (allops axes ds) nodes) as [g' E'].
    - apply Forall_forall. intros o Ho. unfold allops in Ho. apply in_flat_map in Ho. destruct Ho as (d & Hd & Ho).
      unfold dops in Ho. apply in_map_iff in Ho. destruct Ho as (it & <- & Hit). apply filter_In in Hit. cbn [fst].
      rewrite L. destruct (stencil_cov p Hdx axes _ GO (C d Hd)) as (_ & _ & S). apply (sl_idx _ _ _ _ S). tauto.
    - exists g'. split; auto. apply (adds_Ok _ _ _ nval nkeep (node_add p) zero_node node_add_laws) in E'. tauto.
  Qed.

  (** Sum over all nodes of a component. *)
  Lemma Rsum_nth_seq : forall X (d : X) (f : X -> R) l, Rsum f l = Rsum (fun j => f (nth j l d)) (seq 0 (length l)).
  Proof.
    intros X d f l. induction l; simpl; auto. f_equal. rewrite IHl, <- seq_shift, Rsum_map. reflexivity.
  Qed.
  Lemma Rsum_at : forall n c (ops : list (Z * Node R)), Forall (fun o => (0 <= fst o < Z.of_nat n)%Z) ops ->
    Rsum (fun j => Rsum (at_j _ _ nval j c) ops) (seq 0 n) = Rsum (fun o => nval c (snd o)) ops.
  Proof.
    intros n c ops F. rewrite Rsum_swap. apply Rsum_ext. intros o Ho. rewrite Forall_forall in F. specialize (F o Ho).
    rewrite (Rsum_ext _ (fun j => if Nat.eqb (Z.to_nat (fst o)) j then nval c (snd o) else 0)).
    - apply Rsum_seq_pick. lia.
    - intros j _. unfold at_j. destruct (Z.eqb_spec (fst o) (Z.of_nat j)); destruct (Nat.eqb_spec (Z.to_nat (fst o)) j); auto; lia.
  Qed.
  Lemma allops_range : forall axes ds n, GridOk p axes -> (forall d, In d ds -> Covered p axes (d_x d)) ->
    Z.of_nat n = prodlen axes -> Forall (fun o => (0 <= fst o < Z.of_nat n)%Z) (allops axes ds).
  Proof.
    intros axes ds n GO C L. apply Forall_forall. intros o Ho. unfold allops in Ho. apply in_flat_map in Ho. destruct Ho as (d & Hd & Ho).
    unfold dops in Ho. apply in_map_iff in Ho. destruct Ho as (it & <- & Hit). apply filter_In in Hit. cbn [fst].
    rewrite L. destruct (stencil_cov p Hdx axes _ GO (C d Hd)) as (_ & _ & S). apply (sl_idx _ _ _ _ S). tauto.
  Qed.
  Lemma nval_zero : forall c, nval c zero_node = 0.
  Proof. apply (ad_zero _ _ _ _ _ _ _ node_add_laws). Qed.
  (** node j of the result, starting from the zero grid *)
  Lemma rep_node : forall axes ds nodes' j nd, Acc _ _ _ nval nkeep (resizeGrid axes) (allops axes ds) nodes' ->
    nth_error nodes' j = Some nd -> forall c, nval c nd = Rsum (at_j _ _ nval j c) (allops axes ds).
  Proof.
    intros axes ds nodes' j nd (L & H) E c.
    assert (Hj : (j < length (resizeGrid axes))%nat) by (rewrite <- L; apply nth_error_Some; congruence).
    destruct (H j zero_node) as (a' & E' & _ & V).
    - unfold resizeGrid in *. rewrite repeat_length in Hj. rewrite (nth_error_nth' _ zero_node) by (rewrite repeat_length; auto).
      f_equal. apply nth_repeat.
    - rewrite E in E'. injection E' as ->. rewrite V, nval_zero. lra.
  Qed.
  Lemma rep_flip : forall axes ds nodes' j nd, Acc _ _ _ nval nkeep (resizeGrid axes) (allops axes ds) nodes' ->
    nth_error nodes' j = Some nd -> nkeep nd = nkeep zero_node.
  Proof.
    intros axes ds nodes' j nd (L & H) E.
    assert (Hj : (j < length (resizeGrid axes))%nat) by (rewrite <- L; apply nth_error_Some; congruence).
    destruct (H j zero_node) as (a' & E' & Kp & V).
    - unfold resizeGrid in *. rewrite repeat_length in Hj. rewrite (nth_error_nth' _ zero_node) by (rewrite repeat_length; auto).
      f_equal. apply nth_repeat.
    - rewrite E in E'. injection E' as ->. auto.
  Qed.
  Lemma rep_total : forall axes ds nodes' c, GridOk p axes -> (forall d, In d ds -> Covered p axes (d_x d)) ->
    Acc _ _ _ nval nkeep (resizeGrid axes) (allops axes ds) nodes' ->
    Rsum (nval c) nodes' = Rsum (fun d => Rsum (fun it => if act it then nval c (p2g_delta d it) else 0) (items_of p axes (d_x d))) ds.
  Proof.
    intros axes ds nodes' c GO C A. rewrite (Rsum_nth_seq _ zero_node).
    rewrite (Rsum_ext _ (fun j => Rsum (at_j _ _ nval j c) (allops axes ds))).
    2:{ intros j Hj. apply in_seq in Hj. eapply rep_node; eauto. apply nth_error_nth'. lia. }
    rewrite Rsum_at.
    - unfold allops. rewrite Rsum_flat_map. apply Rsum_ext. intros d _. unfold dops. rewrite Rsum_map. cbn [snd].
      apply Rsum_filter.
    - eapply allops_range; eauto. destruct A as (-> & _). eapply resize_length; eauto.
  Qed.

  (** ** Component values of one contribution *)
  Lemma delta_m : forall d it, nval Cm (p2g_delta d it) = it_w it.
  Proof. intros. unfold nval, p2g_delta, p2g_node, zero_node; cbn [nd_m]. rewrite nofZ_R. numR. lra. Qed.
  Definition affine (d : PD) (it : Item R) (k : nat) : R :=
    if Rltb (flip_ratio p) 0 then vget (mvec (d_B d) (vsub (it_x it) (d_x d))) k * apicDinverse p else 0.
  Lemma delta_v : forall d it k, (k < dim)%nat ->
    nval (Cv k) (p2g_delta d it) = it_w it * (vget (d_v d) k + affine d it k).
  Proof.
    intros d it k Hk. unfold nval, p2g_delta, p2g_node, zero_node, affine; cbn [nd_v].
    destruct (Nat.ltb_spec k dim); [|lia]. rewrite nofZ_R. numR.
    destruct (Rltb (flip_ratio p) 0); autorewrite with geo; numR; ring.
  Qed.
  Lemma delta_f : forall d it k, (k < dim)%nat ->
    nval (Cf k) (p2g_delta d it) = vget (mvec (d_tau d) (it_g it)) k.
  Proof.
    intros d it k Hk. unfold nval, p2g_delta, p2g_node, zero_node; cbn [nd_f].
    destruct (Nat.ltb_spec k dim); [|lia]. autorewrite with geo; numR; ring.
  Qed.
  Lemma delta_r : forall d it, use_mibf p = true -> nval Cr (p2g_delta d it) = it_w it * d_mui d.
  Proof.
    intros d it H. unfold nval, p2g_delta, p2g_node, zero_node; cbn [nd_fr]. rewrite H, nofZ_R. numR. ring.
  Qed.
End P2G.
