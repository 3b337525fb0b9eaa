(** * ShiftProofs: steps and simulations of a moved set-up. *)
From Coq Require Import Reals ZArith Lra Lia List Bool.
From Verif Require Import Num NumR Tools Lin Types Remesh Objects Transfer Rma Plastic Pbc Step Spec SpecStep SpecShift LinProofs ResProofs StencilProofs P2GProofs.
Import ListNotations.
Local Open Scope R_scope.

Section Res.
  Lemma bind_out : forall X Y Z (f : X -> Y) (m : res X) (k : Y -> res Z), bind (outcome f m) k = bind m (fun x => k (f x)).
  Proof. now destruct m. Qed.
  Lemma out_bind : forall X Y Z (f : Y -> Z) (m : res X) (k : X -> res Y), outcome f (bind m k) = bind m (fun x => outcome f (k x)).
  Proof. now destruct m. Qed.
  Lemma bind_ext : forall X Y (m : res X) (k k' : X -> res Y), (forall x, m = Ok x -> k x = k' x) -> bind m k = bind m k'.
  Proof. intros. destruct m; cbn; auto. Qed.
  Lemma rd_map : forall X Y (f : X -> Y) l z, rd (map f l) z = outcome f (rd l z).
  Proof. intros. unfold rd. destruct (z <? 0)%Z; auto. rewrite nth_error_map. now destruct (nth_error l (Z.to_nat z)). Qed.
  Lemma upd_nat_map : forall X Y (f : X -> Y) v l i, upd_nat (map f l) i (fun _ => f v) = option_map (map f) (upd_nat l i (fun _ => v)).
  Proof. intros X Y f v. induction l as [|x l IH]; intros [|i]; cbn; auto. rewrite IH. now destruct (upd_nat l i (fun _ => v)). Qed.
  Lemma upd_map : forall X Y (f : X -> Y) v l z, upd (map f l) z (fun _ => f v) = outcome (map f) (upd l z (fun _ => v)).
  Proof. intros. unfold upd. destruct (z <? 0)%Z; auto. rewrite upd_nat_map. now destruct (upd_nat l (Z.to_nat z) (fun _ => v)). Qed.
  Lemma mapM_out : forall X X' Y Y' (f : X -> res Y) (g : X' -> res Y') (h : X -> X') (h' : Y -> Y') l, (forall x, In x l -> g (h x) = outcome h' (f x)) ->
    mapM g (map h l) = outcome (map h') (mapM f l).
  Proof.
    intros X X' Y Y' f g h h' l. induction l as [|x l IH]; intros H; cbn; auto. rewrite H by now left. destruct (f x); cbn; auto. rewrite IH by (intros; apply H; now right). now destruct (mapM f l).
  Qed.
  Lemma foldM_out : forall S S' X (F : S -> X -> res S) (F' : S' -> X -> res S') (h : S -> S') l s, (forall s x, F' (h s) x = outcome h (F s x)) -> foldM F' l (h s) = outcome h (foldM F l s).
  Proof. intros S S' X F F' h l. induction l as [|x l IH]; intros s H; cbn; auto. rewrite H. destruct (F s x); cbn; auto. Qed.
  Lemma foldM_map : forall S X X' (F : S -> X -> res S) (F' : S -> X' -> res S) (h : X -> X') l s, (forall s x, F' s (h x) = F s x) -> foldM F' (map h l) s = foldM F l s.
  Proof. intros S X X' F F' h l. induction l as [|x l IH]; intros s H; cbn; auto. rewrite H. destruct (F s x); cbn; auto. Qed.
  Lemma foldM_same : forall S X (F F' : S -> X -> res S) l s, (forall s x, In x l -> F' s x = F s x) -> foldM F' l s = foldM F l s.
  Proof. intros S X F F' l. induction l as [|x l IH]; intros s H; cbn; auto. rewrite H by now left. destruct (F s x); cbn; auto. apply IH. intros; apply H; now right. Qed.
End Res.

Section ShiftP.
  Context {G : Geo R} {GL : GeoLaws G}.
  Variable svd : TM -> TM * TV * TM.
  Variable uabs : R -> R.
  Variable a : TV.
  Notation mv := (move a).
  Lemma move_get : forall x k, (k < dim)%nat -> vget (mv x) k = vget x k + vget a k.
  Proof. intros. unfold move. now rewrite vget_tab. Qed.
  Lemma Rltb_shift : forall x y c, Rltb (x + c) (y + c) = Rltb x y.
  Proof. intros. destruct (Rltb_spec (x + c) (y + c)), (Rltb_spec x y); auto; lra. Qed.

  (** Grid. *)
  Lemma max_elem_shift : forall c xs, max_elem (map (fun x => x + c) xs) = outcome (fun x => x + c) (max_elem xs).
  Proof.
    intros c [|x xs]; auto. cbn [map max_elem outcome]. f_equal. revert x. induction xs as [|y xs IH]; intros x; auto. cbn [map fold_left]. numR. rewrite Rltb_shift. rewrite <- IH. f_equal. now destruct (Rltb x y).
  Qed.
  Lemma min_elem_shift : forall c xs, min_elem (map (fun x => x + c) xs) = outcome (fun x => x + c) (min_elem xs).
  Proof.
    intros c [|x xs]; auto. cbn [map min_elem outcome]. f_equal. revert x. induction xs as [|y xs IH]; intros x; auto. cbn [map fold_left]. numR. rewrite Rltb_shift. rewrite <- IH. f_equal. now destruct (Rltb y x).
  Qed.
  Lemma arange_shift : forall c fuel u v d, arange fuel (u + c) (v + c) d = outcome (map (fun x => x + c)) (arange fuel u v d).
  Proof.
    intros c fuel u v d. unfold arange.
    assert (E : forall fuel u, arange_loop fuel (u + c) (v + c) d = option_map (map (fun x => x + c)) (arange_loop fuel u v d)).
    { clear fuel u. induction fuel as [|fuel IH]; intros u; cbn [arange_loop]; numR; rewrite Rltb_shift; destruct (Rltb u v); auto.
      replace (u + c + d) with (u + d + c) by ring. rewrite IH. now destruct (arange_loop fuel (u + d) v d). }
    rewrite E. now destruct (arange_loop fuel u v d).
  Qed.
  Lemma mk_axis_shift : forall c fuel u v d, mk_axis fuel (u + c) (v + c) d = outcome (move_axis c) (mk_axis fuel u v d).
  Proof.
    intros. unfold mk_axis. rewrite arange_shift, bind_out, out_bind. apply bind_ext. intros co _. rewrite rd_map, bind_out, out_bind. apply bind_ext. intros z _. reflexivity.
  Qed.
  Definition pair_move (c : R) (am : Axis R * MeshAx R) := (move_axis c (fst am), move_mesh c (snd am)).
  Lemma coords_shift : forall xs k, (k < dim)%nat -> map (fun v => vget v k) (map mv xs) = map (fun x => x + vget a k) (map (fun v => vget v k) xs).
  Proof. intros. rewrite !map_map. apply map_ext. intros. now rewrite move_get. Qed.
  Lemma dim_pos : (0 < dim)%nat.
  Proof. destruct gl_dim; lia. Qed.
  Lemma init_axis_shift : forall fuel p p' sf xs k, scene_moved a p p' -> (k < dim)%nat ->
    remeshInit_axis fuel p' sf (map mv xs) k = outcome (pair_move (vget a k)) (remeshInit_axis fuel p sf xs k).
  Proof.
    intros fuel p p' sf xs k (Ep & Er & _) Hk. unfold remeshInit_axis. rewrite !coords_shift by auto. rewrite max_elem_shift, bind_out, out_bind. apply bind_ext. intros mx _.
    rewrite min_elem_shift, bind_out, out_bind. apply bind_ext. intros mn _.
    assert (Ra : ref_adjust p' k (mn + vget a k) (mx + vget a k) = (fst (ref_adjust p k mn mx) + vget a k, snd (ref_adjust p k mn mx) + vget a k)).
    { unfold ref_adjust. destruct Er as [(H1 & H2)|(H1 & H2 & H3)].
      - rewrite !nofZ_R. numR. destruct (Rltb_spec (vget (grid_ref p) 0) 10000000000); [lra|]. destruct (Rltb_spec (vget (grid_ref p') 0) 10000000000); [lra|]. reflexivity.
      - rewrite !nofZ_R. numR. destruct (Rltb_spec (vget (grid_ref p) 0) 10000000000); [|lra]. destruct (Rltb_spec (vget (grid_ref p') 0) 10000000000); [|lra].
        rewrite H3, move_get by auto. rewrite !Rltb_shift. destruct (Rltb (vget (grid_ref p) k) mn); auto. destruct (Rltb mx (vget (grid_ref p) k)); auto. }
    rewrite Ra. destruct (ref_adjust p k mn mx) as [mn' mx']. cbn [fst snd].
    assert (Ed : dx p' = dx p) by now rewrite Ep. rewrite Ed. numR.
    replace (mn' + vget a k - dx p * nofZ sf) with (mn' - dx p * nofZ sf + vget a k) by ring.
    replace (mx' + vget a k + dx p * nofZ sf) with (mx' + dx p * nofZ sf + vget a k) by ring.
    replace (mx' + dx p * nofZ sf + vget a k + dx p) with (mx' + dx p * nofZ sf + dx p + vget a k) by ring.
    rewrite mk_axis_shift, bind_out, out_bind. apply bind_ext. intros ax _. reflexivity.
  Qed.
  Lemma by_axis_fst : forall l k, map fst (by_axis a pair_move k l) = by_axis a move_axis k (map fst l).
  Proof. induction l as [|x l IH]; intros; cbn; auto. now rewrite IH. Qed.
  Lemma by_axis_snd : forall l k, map snd (by_axis a pair_move k l) = by_axis a move_mesh k (map snd l).
  Proof. induction l as [|x l IH]; intros; cbn; auto. now rewrite IH. Qed.
  Lemma mapM_axis : forall X (f g : nat -> res X) h n k, (forall j, (k <= j < k + n)%nat -> g j = outcome (h (vget a j)) (f j)) ->
    mapM g (seq k n) = outcome (by_axis a h k) (mapM f (seq k n)).
  Proof.
    intros X f g h n. induction n as [|n IH]; intros k H; cbn [seq mapM]; auto. rewrite H by lia. destruct (f k); cbn; auto. rewrite (IH (S k)) by (intros; apply H; lia). now destruct (mapM f (seq (S k) n)).
  Qed.
  Lemma init_shift : forall fuel p p' sf xs, scene_moved a p p' ->
    remeshFixedInit fuel p' sf (map mv xs) = outcome (by_axis a pair_move 0) (remeshFixedInit fuel p sf xs).
  Proof. intros. unfold remeshFixedInit. apply mapM_axis. intros j Hj. apply init_axis_shift; auto. lia. Qed.
  Lemma cont_axis_shift : forall fuel p p' xs m k, scene_moved a p p' -> (k < dim)%nat ->
    remeshCont_axis fuel p' (map mv xs) (move_mesh (vget a k) m) k = outcome (move_axis (vget a k)) (remeshCont_axis fuel p xs m k).
  Proof.
    intros fuel p p' xs m k (Ep & Er & _) Hk. unfold remeshCont_axis. rewrite !coords_shift by auto. rewrite max_elem_shift, bind_out, out_bind. apply bind_ext. intros mx _.
    rewrite min_elem_shift, bind_out, out_bind. apply bind_ext. intros mn _. set (c := vget a k).
    assert (Sf : forall d, shift_factor p' d = shift_factor p d) by (intros; unfold shift_factor; now rewrite Ep).
    assert (Ed : dx p' = dx p) by now rewrite Ep.
    assert (Eh : cont_high p' (move_mesh c m) (mx + c) = outcome (fun x => x + c) (cont_high p m mx)).
    { unfold cont_high, move_mesh. cbn [ma_max ma_high]. numR. rewrite Rltb_shift, Ed, !Sf. replace (ma_max m + c - (mx + c)) with (ma_max m - mx) by ring. replace (mx + c - (ma_max m + c)) with (mx - ma_max m) by ring.
      destruct (Rltb mx (ma_max m)); rewrite out_bind; apply bind_ext; intros f _; cbn [outcome]; f_equal; ring. }
    assert (El : cont_low p' (move_mesh c m) (mn + c) = outcome (fun x => x + c) (cont_low p m mn)).
    { unfold cont_low, move_mesh. cbn [ma_min ma_low]. numR. rewrite Rltb_shift, Ed, !Sf. replace (ma_min m + c - (mn + c)) with (ma_min m - mn) by ring. replace (mn + c - (ma_min m + c)) with (mn - ma_min m) by ring.
      destruct (Rltb (ma_min m) mn); rewrite out_bind; apply bind_ext; intros f _; cbn [outcome]; f_equal; ring. }
    rewrite Eh, bind_out, out_bind. apply bind_ext. intros hi _. rewrite El, bind_out, out_bind. apply bind_ext. intros lo _. rewrite Ed. numR.
    replace (hi + c + dx p) with (hi + dx p + c) by ring. apply mk_axis_shift.
  Qed.
  Lemma cont_shift : forall fuel p p' xs ms, scene_moved a p p' ->
    remeshFixedCont fuel p' (map mv xs) (by_axis a move_mesh 0 ms) = outcome (by_axis a move_axis 0) (remeshFixedCont fuel p xs ms).
  Proof.
    intros fuel p p' xs ms H. unfold remeshFixedCont.
    assert (E : forall n ms k, (k + n <= dim)%nat -> mapM (fun mk => remeshCont_axis fuel p' (map mv xs) (fst mk) (snd mk)) (combine (by_axis a move_mesh k ms) (seq k n)) =
      outcome (by_axis a move_axis k) (mapM (fun mk => remeshCont_axis fuel p xs (fst mk) (snd mk)) (combine ms (seq k n)))).
    { clear ms. induction n as [|n IH]; intros [|m ms] k Hk; cbn [by_axis seq combine mapM]; auto. cbn [fst snd]. rewrite (cont_axis_shift fuel p p') by (auto; lia).
      destruct (remeshCont_axis fuel p xs m k); cbn; auto. rewrite IH by lia. now destruct (mapM _ (combine ms (seq (S k) n))). }
    apply E. lia.
  Qed.
  Lemma init_length : forall fuel p sf xs am, remeshFixedInit fuel p sf xs = Ok am -> length am = dim.
  Proof. intros fuel p sf xs am H. unfold remeshFixedInit in H. apply mapM_length in H. now rewrite seq_length in H. Qed.
  Lemma cont_length : forall fuel p xs ms axes, length ms = dim -> remeshFixedCont fuel p xs ms = Ok axes -> length axes = dim.
  Proof. intros fuel p xs ms axes L H. unfold remeshFixedCont in H. apply mapM_length in H. rewrite combine_length, seq_length, L in H. lia. Qed.

  (** Stencils. *)
  Definition move_item (it : Item R) : Item R := mkItem (it_idx it) (it_w it) (it_g it) (mv (it_x it)).
  Definition move_ax (c : R) (t : AxItem R) : AxItem R := mkAxItem (ai_i t) (ai_x t + c) (ai_w t) (ai_g t).
  Lemma base_p2g_shift : forall p p' ax x c, scene_moved a p p' -> base_p2g p' (move_axis c ax) (x + c) = base_p2g p ax x.
  Proof.
    intros p p' ax x c (Ep & _). rewrite Ep. unfold base_p2g, move_axis. cbn [ax_c]. numR. change (one_over_dx (with_scene p (grid_ref p') (objects p'))) with (one_over_dx p).
    now replace (x + c - (ax_c ax + c)) with (x - ax_c ax) by ring.
  Qed.
  Lemma base_g2p_shift : forall p p' ax x c, scene_moved a p p' -> base_g2p p' (move_axis c ax) (x + c) = base_g2p p ax x.
  Proof.
    intros p p' ax x c (Ep & _). rewrite Ep. unfold base_g2p, move_axis. cbn [ax_c]. numR. change (one_over_dx (with_scene p (grid_ref p') (objects p'))) with (one_over_dx p).
    now replace (x + c - (ax_c ax + c)) with (x - ax_c ax) by ring.
  Qed.
  Lemma items_shift : forall p p' ax x c b, scene_moved a p p' -> ax_items p' (move_axis c ax) (x + c) b = outcome (map (move_ax c)) (ax_items p ax x b).
  Proof.
    intros p p' ax x c b (Ep & _). rewrite Ep. unfold ax_items. rewrite <- (map_id [0;1;2;3]%Z) at 1. apply mapM_out. intros d _. unfold ax_item, move_axis. cbn [ax_co].
    rewrite rd_map, bind_out, out_bind. apply bind_ext. intros xi _. cbn [outcome]. unfold move_ax. cbn [ai_i ai_x ai_w ai_g]. numR.
    change (one_over_dx (with_scene p (grid_ref p') (objects p'))) with (one_over_dx p). change (spline (with_scene p (grid_ref p') (objects p'))) with (spline p).
    now replace (x + c - (xi + c)) with (x - xi) by ring.
  Qed.
  Lemma ax_n_shift : forall c ax, ax_n (move_axis c ax) = ax_n ax.
  Proof. intros. unfold ax_n, move_axis. cbn [ax_co]. now rewrite map_length. Qed.
  Lemma pos2 : forall x y, dim = 2%nat -> vset (vset vzero 0 (x + vget a 0)) 1 (y + vget a 1) = mv (vset (vset vzero 0 x) 1 y).
  Proof. intros x y D. apply vext. intros k Hk. rewrite move_get by auto. rewrite !vget_set by auto. destruct k as [|[|k]]; cbn [Nat.eqb]; auto. lia. Qed.
  Lemma pos3 : forall x y z, dim = 3%nat -> vset (vset (vset vzero 0 (x + vget a 0)) 1 (y + vget a 1)) 2 (z + vget a 2) = mv (vset (vset (vset vzero 0 x) 1 y) 2 z).
  Proof. intros x y z D. apply vext. intros k Hk. rewrite move_get by auto. rewrite !vget_set by auto. destruct k as [|[|[|k]]]; cbn [Nat.eqb]; auto. lia. Qed.
  Lemma map_flat : forall X Y Z (f : Y -> Z) (h : X -> list Y) l, map f (flat_map h l) = flat_map (fun x => map f (h x)) l.
  Proof. intros. induction l as [|x l IH]; cbn; auto. now rewrite map_app, IH. Qed.
  Lemma flat_map_map : forall X Y Z (g : X -> Y) (h : Y -> list Z) l, flat_map h (map g l) = flat_map (fun x => h (g x)) l.
  Proof. intros. induction l as [|x l IH]; cbn; auto. now rewrite IH. Qed.
  Lemma stencil_shift : forall base p p' axes x, scene_moved a p p' -> length axes = dim -> (forall ax x c, base p' (move_axis c ax) (x + c) = base p ax x) ->
    stencil base p' (by_axis a move_axis 0 axes) (mv x) = outcome (map move_item) (stencil base p axes x).
  Proof.
    intros base p p' axes x Sc L Hb. destruct axes as [|ax [|ay [|az [|? ?]]]]; cbn [by_axis stencil length] in *; try reflexivity.
    - rewrite !move_get by lia. rewrite !Hb, out_bind. apply bind_ext. intros bi _. rewrite out_bind. apply bind_ext. intros bj _.
      rewrite (items_shift p p'), bind_out, out_bind by auto. apply bind_ext. intros xs _. rewrite (items_shift p p'), bind_out, out_bind by auto. apply bind_ext. intros ys _.
      cbn [outcome]. f_equal. rewrite map_flat, flat_map_map. apply flat_map_ext. intros t. rewrite !map_map. apply map_ext. intros u. unfold item2, move_item, move_ax. cbn [ai_i ai_x ai_w ai_g it_idx it_w it_g it_x].
      now rewrite ax_n_shift, pos2 by auto.
    - rewrite !move_get by lia. rewrite !Hb, out_bind. apply bind_ext. intros bi _. rewrite out_bind. apply bind_ext. intros bj _. rewrite out_bind. apply bind_ext. intros bk _.
      rewrite (items_shift p p'), bind_out, out_bind by auto. apply bind_ext. intros xs _. rewrite (items_shift p p'), bind_out, out_bind by auto. apply bind_ext. intros ys _. rewrite (items_shift p p'), bind_out, out_bind by auto. apply bind_ext. intros zs _.
      cbn [outcome]. f_equal. rewrite map_flat, flat_map_map. apply flat_map_ext. intros t. rewrite map_flat, flat_map_map. apply flat_map_ext. intros u. rewrite !map_map. apply map_ext. intros w. unfold item3, move_item, move_ax. cbn [ai_i ai_x ai_w ai_g it_idx it_w it_g it_x].
      now rewrite !ax_n_shift, pos3 by auto.
  Qed.
  Lemma dist_shift : forall x y, vsub (mv x) (mv y) = vsub x y.
  Proof. intros. apply vext. intros k Hk. rewrite !vget_sub, !move_get by auto. numR. ring. Qed.

  (** Transfers. *)
  Section Scene.
  Variable p p' : Par R.
  Hypothesis Sc : scene_moved a p p'.
  Notation mva := (by_axis a move_axis 0).
  Lemma p2g_item_shift : forall xp vp B tau mui nodes it, p2g_item p' (mv xp) vp B tau mui nodes (move_item it) = p2g_item p xp vp B tau mui nodes it.
  Proof.
    intros. destruct Sc as (Ep & _). rewrite Ep. unfold p2g_item, move_item. cbn [it_w it_idx].
    assert (E : forall nd, p2g_node (with_scene p (grid_ref p') (objects p')) (mv xp) vp B tau mui (mkItem (it_idx it) (it_w it) (it_g it) (mv (it_x it))) nd = p2g_node p xp vp B tau mui it nd).
    { intros nd. unfold p2g_node. cbn [it_w it_x it_g]. rewrite dist_shift. reflexivity. }
    destruct (_ >? _)%num; auto. apply upd_ext. exact E.
  Qed.
  Lemma p2g_particle_shift : forall axes P nodes i, length axes = dim -> p2g_particle p' (mva axes) (move_particles a P) nodes i = p2g_particle p axes P nodes i.
  Proof.
    intros axes P nodes i L. unfold p2g_particle. cbn [p_x p_tau p_v p_B p_hist move_particles]. rewrite rd_map, bind_out. apply bind_ext. intros xp _. apply bind_ext. intros tau _. apply bind_ext. intros vp _.
    assert (Ef : flip_ratio p' = flip_ratio p) by (destruct Sc as (-> & _); reflexivity). assert (Em : use_mibf p' = use_mibf p) by (destruct Sc as (-> & _); reflexivity).
    rewrite Ef, Em. apply bind_ext. intros B _. apply bind_ext. intros mui _. rewrite (stencil_shift base_p2g p p'), bind_out; auto; [|intros; now apply base_p2g_shift]. apply bind_ext. intros items _.
    apply foldM_map. intros. apply p2g_item_shift.
  Qed.
  Lemma p2g_shift : forall axes P sched nodes, length axes = dim -> p2g p' (mva axes) (move_particles a P) sched nodes = p2g p axes P sched nodes.
  Proof.
    intros axes P sched nodes L. unfold p2g.
    assert (E : p2g_accumulate p' (mva axes) (move_particles a P) sched nodes = p2g_accumulate p axes P sched nodes).
    { unfold p2g_accumulate. apply foldM_same. intros g th _. unfold p2g_thread. rewrite (foldM_same _ _ (p2g_particle p axes P)) by (intros; now apply p2g_particle_shift). apply bind_ext. intros l _. destruct Sc as (-> & _). reflexivity. }
    rewrite E. apply bind_ext. intros l _. destruct Sc as (-> & _). reflexivity.
  Qed.
  Lemma node_list_shift : forall axes : list (Axis R), length axes = dim -> node_list (mva axes) = outcome (map (fun ix => (fst ix, mv (snd ix)))) (node_list axes).
  Proof.
    intros axes L.
    assert (E : forall c ax, mapM (fun i => x <- rd (ax_co (move_axis c ax)) i;; Ok (i, x)) (zseq (ax_n (move_axis c ax))) =
      outcome (map (fun ix => (fst ix, snd ix + c))) (mapM (fun i => x <- rd (ax_co ax) i;; Ok (i, x)) (zseq (ax_n ax)))).
    { intros c ax. rewrite ax_n_shift. rewrite <- (map_id (zseq (ax_n ax))) at 1. apply mapM_out. intros i _. cbn [ax_co move_axis]. rewrite rd_map, bind_out, out_bind. apply bind_ext. intros; reflexivity. }
    destruct axes as [|ax [|ay [|az [|? ?]]]]; cbn [by_axis node_list length] in *; try reflexivity.
    - rewrite !E. rewrite bind_out, out_bind. apply bind_ext. intros xs _. rewrite bind_out, out_bind. apply bind_ext. intros ys _. cbn [outcome]. f_equal.
      rewrite map_flat, flat_map_map. apply flat_map_ext. intros t. rewrite !map_map. apply map_ext. intros u. cbn [fst snd]. now rewrite ax_n_shift, pos2 by auto.
    - rewrite !E. rewrite bind_out, out_bind. apply bind_ext. intros xs _. rewrite bind_out, out_bind. apply bind_ext. intros ys _. rewrite bind_out, out_bind. apply bind_ext. intros zs _. cbn [outcome]. f_equal.
      rewrite map_flat, flat_map_map. apply flat_map_ext. intros t. rewrite map_flat, flat_map_map. apply flat_map_ext. intros u. rewrite !map_map. apply map_ext. intros w. cbn [fst snd]. now rewrite !ax_n_shift, pos3 by auto.
  Qed.
  Lemma plate_inside_shift : forall pl X, plate_inside (move_plate a pl) (mv X) = plate_inside pl X.
  Proof.
    intros pl X. unfold plate_inside, move_plate. destruct (pl_type pl) eqn:Et; cbn [pl_type pl_upper pl_lower pl_pos]; rewrite ?Et;
      try (rewrite !move_get by (destruct gl_dim; lia); numR; rewrite !Rltb_shift; match goal with |- _ && Rleb ?u _ = _ && Rleb ?v _ => replace u with v by ring end; reflexivity);
      destruct gl_dim as [D|D]; rewrite D; auto; rewrite !move_get by lia; numR; match goal with |- Rleb ?u _ = Rleb ?v _ => replace u with v by ring end; reflexivity.
  Qed.
  Lemma collision_shift : forall plates dt nfr X v, boundaryCollision p' (map (move_plate a) plates) dt nfr (mv X) v = boundaryCollision p plates dt nfr X v.
  Proof.
    intros plates dt nfr X v. unfold boundaryCollision.
    assert (Ex : vadd (mv X) (lscale dt v) = mv (vadd X (lscale dt v))).
    { apply vext. intros k Hk. rewrite move_get, !vget_add, move_get by auto. numR. ring. }
    rewrite Ex. clear Ex. set (Y := vadd X (lscale dt v)). clearbody Y.
    assert (Eo : objects_loop p' nfr (mv Y) v = objects_loop p nfr Y v).
    { unfold objects_loop. assert (Em : use_mibf p' = use_mibf p) by (destruct Sc as (-> & _); reflexivity). rewrite Em. destruct Sc as (_ & _ & F2). revert v. induction F2 as [|o o' os os' (B1 & B2 & B3) F2 IH]; intros v; auto.
      cbn [foldM]. destruct (B3 Y) as (I1 & I2). rewrite I1, I2, B1, B2. destruct (inside (ob_shape o) Y) as [[|]| |]; cbn [bind]; auto.
      destruct (collide _ _ _ _); cbn [bind]; auto. }
    rewrite Eo. apply bind_ext. intros w _. f_equal. unfold plates_loop. assert (Em : use_mibf p' = use_mibf p) by (destruct Sc as (-> & _); reflexivity). rewrite Em. clear - GL. revert w. induction plates as [|pl l IH]; intros w; auto.
    cbn [map fold_left]. rewrite plate_inside_shift. rewrite IH. f_equal. destruct (plate_inside pl Y); auto.
    unfold plate_collide, move_plate. destruct (pl_type pl) eqn:Et; cbn [pl_v pl_fric pl_bc pl_type]; rewrite ?Et; reflexivity.
  Qed.
  Lemma euler_shift : forall plates dt grav axes sched nodes, length axes = dim ->
    euler p' (map (move_plate a) plates) dt grav (mva axes) sched nodes = euler p plates dt grav axes sched nodes.
  Proof.
    intros plates dt grav axes sched nodes L. unfold euler. rewrite node_list_shift, bind_out by auto. apply bind_ext. intros nl _. apply foldM_same. intros g k _.
    rewrite rd_map, bind_out. apply bind_ext. intros [i X] _. cbn [fst snd]. apply bind_ext. intros nd _. f_equal.
    unfold euler_node. assert (Ev : particle_volume p' = particle_volume p) by (destruct Sc as (-> & _); reflexivity). rewrite Ev. destruct (_ >? _)%num; auto. now rewrite collision_shift.
  Qed.

  (** Particle loops. *)
  Definition move1 (q : P1 R) : P1 R := mkP1 (mv (q_x q)) (q_v q) (q_pic q) (q_flip q) (q_h q) (q_F q) (q_B q) (q_tau q).
  Lemma getp_shift : forall P i, getp (move_particles a P) i = outcome move1 (getp P i).
  Proof.
    intros P i. unfold getp. cbn [p_x p_v p_pic p_flip p_hist p_F p_B p_tau move_particles]. rewrite rd_map, bind_out, out_bind. apply bind_ext. intros x _.
    repeat (rewrite out_bind; apply bind_ext; intros ? _). reflexivity.
  Qed.
  Lemma putp_shift : forall P i q, putp (move_particles a P) i (move1 q) = outcome (move_particles a) (putp P i q).
  Proof.
    intros P i q. unfold putp. cbn [p_x p_v p_pic p_flip p_hist p_F p_B p_tau move_particles move1 q_x q_v q_pic q_flip q_h q_F q_B q_tau]. rewrite upd_map, bind_out, out_bind. apply bind_ext. intros x _.
    repeat (rewrite out_bind; apply bind_ext; intros ? _). reflexivity.
  Qed.
  Definition first {X Y Z} (f : X -> Y) (r : X * Z) : Y * Z := (f (fst r), snd r).
  Lemma ploop_shift : forall body body' sched P, (forall q, body' (move1 q) = outcome (first move1) (body q)) ->
    ploop body' sched (move_particles a P) = outcome (first (move_particles a)) (ploop body sched P).
  Proof.
    intros body body' sched P H. unfold ploop. change (move_particles a P, (false, 0%nat)) with (first (Z := Flags) (move_particles a) (P, (false, 0%nat))).
    apply foldM_out. intros [Q fl] i. cbn [first fst snd]. rewrite getp_shift, bind_out, out_bind. apply bind_ext. intros q _. rewrite H, bind_out, out_bind. apply bind_ext. intros [q' f'] _. cbn [first fst snd].
    rewrite putp_shift, bind_out, out_bind. apply bind_ext. intros; reflexivity.
  Qed.
  Lemma gather_shift : forall f f' nodes items, (forall it nd acc, f' (move_item it) nd acc = f it nd acc) -> gather f' nodes (map move_item items) = gather f nodes items.
  Proof. intros f f' nodes items H. unfold gather. apply foldM_map. intros s it. cbn [it_idx move_item]. apply bind_ext. intros nd _. now rewrite H. Qed.
  Lemma gatherM_shift : forall f f' nodes items, (forall it nd acc, f' (move_item it) nd acc = f it nd acc) -> gatherM f' nodes (map move_item items) = gatherM f nodes items.
  Proof. intros f f' nodes items H. unfold gatherM. apply foldM_map. intros s it. cbn [it_idx move_item]. apply bind_ext. intros nd _. now rewrite H. Qed.
  Notation plast := (plasticity svd uabs).
  Lemma strain_shift : forall dt vg q, strain_particle plast p' dt vg (move1 q) = outcome (first move1) (strain_particle plast p dt vg q).
  Proof.
    intros dt vg q. unfold strain_particle. cbn [move1 q_F q_tau q_h q_x q_v q_pic q_flip q_B]. rewrite out_bind.
    assert (E : plast p' dt (F_trial dt vg (q_F q)) (q_tau q) (q_h q) = plast p dt (F_trial dt vg (q_F q)) (q_tau q) (q_h q)) by (destruct Sc as (-> & _); reflexivity).
    rewrite E. apply bind_ext. intros; reflexivity.
  Qed.
  Lemma g2p_shift : forall axes nodes dt sched P, length axes = dim ->
    g2p plast p' (mva axes) nodes dt sched (move_particles a P) = outcome (first (move_particles a)) (g2p plast p axes nodes dt sched P).
  Proof.
    intros axes nodes dt sched P L. unfold g2p. apply ploop_shift. intros q. unfold g2p_particle. cbn [move1 q_x q_v q_h q_F q_tau].
    rewrite (stencil_shift base_g2p p p'), bind_out, out_bind; auto; [|intros; now apply base_g2p_shift]. apply bind_ext. intros items _.
    assert (Ef : flip_ratio p' = flip_ratio p) by (destruct Sc as (-> & _); reflexivity). assert (Em : use_musl p' = use_musl p) by (destruct Sc as (-> & _); reflexivity). rewrite Ef, Em.
    unfold g_pic, g_vgrad, g_flip, g_B. rewrite (gather_shift (fun it nd acc => vadd acc (vscale (nd_v nd) (it_w it)))) by reflexivity.
    rewrite (gatherM_shift (fun it nd acc => madd acc (mouter (nd_v nd) (it_g it)))) by reflexivity.
    rewrite (gather_shift (fun it nd acc => vadd acc (vscale (nd_flip nd) (it_w it)))) by reflexivity.
    rewrite (gatherM_shift (fun it nd acc => madd acc (mscale (mouter (nd_v nd) (vsub (it_x it) (q_x q))) (it_w it)))) by (intros; cbn [it_x it_w move_item]; now rewrite dist_shift).
    rewrite out_bind. apply bind_ext. intros pic _. rewrite out_bind. apply bind_ext. intros vg _. rewrite out_bind. apply bind_ext. intros B _. rewrite out_bind. apply bind_ext. intros fl _.
    destruct (use_musl p); [reflexivity|]. rewrite <- strain_shift. reflexivity.
  Qed.
  Lemma def_shift : forall axes nodes dt sched P, length axes = dim ->
    deformationUpdate plast p' (mva axes) nodes dt sched (move_particles a P) = outcome (first (move_particles a)) (deformationUpdate plast p axes nodes dt sched P).
  Proof.
    intros axes nodes dt sched P L. unfold deformationUpdate. apply ploop_shift. intros q. unfold def_particle. cbn [move1 q_x q_v q_pic q_flip q_h q_F q_B q_tau].
    rewrite (stencil_shift base_g2p p p'), bind_out, out_bind; auto; [|intros; now apply base_g2p_shift]. apply bind_ext. intros items _.
    unfold g_vgrad. rewrite (gatherM_shift (fun it nd acc => madd acc (mouter (nd_v nd) (it_g it)))) by reflexivity. rewrite out_bind. apply bind_ext. intros vg _. rewrite <- strain_shift. reflexivity.
  Qed.
  Lemma velocity_shift : forall q, new_velocity p' (move1 q) = new_velocity p q.
  Proof. intros. destruct Sc as (-> & _). reflexivity. Qed.
  Lemma musl_v_shift : forall sched P, musl_velocities p' sched (move_particles a P) = outcome (first (move_particles a)) (musl_velocities p sched P).
  Proof. intros. unfold musl_velocities. apply ploop_shift. intros q. rewrite velocity_shift. reflexivity. Qed.
  Lemma pos_shift : forall dt sched P, use_pbc p = false -> change_pos p = false ->
    positionUpdate p' dt sched (move_particles a P) = outcome (first (move_particles a)) (positionUpdate p dt sched P).
  Proof.
    intros dt sched P U C. unfold positionUpdate. apply ploop_shift. intros q. unfold pos_particle. rewrite velocity_shift. cbn [outcome]. f_equal.
    assert (Eu : use_pbc p' = false) by (destruct Sc as (-> & _); exact U). assert (Ec : change_pos p' = false) by (destruct Sc as (-> & _); exact C). assert (Em : use_musl p' = use_musl p) by (destruct Sc as (-> & _); reflexivity).
    unfold pbc_wrap, pos_hack. rewrite U, C, Eu, Ec, Em. cbn [q_x q_pic move1].
    assert (Ex : vadd (mv (q_x q)) (lscale dt (q_pic q)) = mv (vadd (q_x q) (lscale dt (q_pic q)))) by (apply vext; intros k Hk; rewrite move_get, !vget_add, move_get by auto; numR; ring).
    rewrite Ex. destruct (use_musl p); reflexivity.
  Qed.
  Lemma musl_item_shift : forall xp vp B nodes it, musl_item p' (mv xp) vp B nodes (move_item it) = musl_item p xp vp B nodes it.
  Proof.
    intros. destruct Sc as (Ep & _). rewrite Ep. unfold musl_item, move_item. cbn [it_w it_idx].
    assert (E : forall nd, musl_node (with_scene p (grid_ref p') (objects p')) (mv xp) vp B (mkItem (it_idx it) (it_w it) (it_g it) (mv (it_x it))) nd = musl_node p xp vp B it nd).
    { intros nd. unfold musl_node. cbn [it_w it_x it_g]. rewrite dist_shift. reflexivity. }
    destruct (_ >? _)%num; auto. apply upd_ext. exact E.
  Qed.
  Lemma musl_grid_shift : forall axes P sched nodes, length axes = dim -> musl_grid p' (mva axes) (move_particles a P) sched nodes = musl_grid p axes P sched nodes.
  Proof.
    intros axes P sched nodes L. unfold musl_grid.
    assert (E : forall g i, musl_particle p' (mva axes) (move_particles a P) g i = musl_particle p axes P g i).
    { intros g i. unfold musl_particle. cbn [p_x p_v p_B move_particles]. rewrite rd_map, bind_out. apply bind_ext. intros xp _. apply bind_ext. intros vp _.
      assert (Ef : flip_ratio p' = flip_ratio p) by (destruct Sc as (-> & _); reflexivity). rewrite Ef. apply bind_ext. intros B _.
      rewrite (stencil_shift base_p2g p p'), bind_out; auto; [|intros; now apply base_p2g_shift]. apply bind_ext. intros items _. apply foldM_map. intros. apply musl_item_shift. }
    rewrite (foldM_same _ _ (fun g th => l <- foldM (musl_particle p axes P) th (repeat zero_node (length nodes)) ;; Ok (musl_merge g l))).
    - apply bind_ext. intros g _. destruct Sc as (-> & _). reflexivity.
    - intros g th _. rewrite (foldM_same _ _ (musl_particle p axes P)) by (intros; apply E). reflexivity.
  Qed.
  Lemma plate_move_shift : forall dt f t pl, plate_move dt f t (move_plate a pl) = move_plate a (plate_move dt f t pl).
  Proof.
    intros dt f t pl. unfold plate_move, move_plate. destruct (pl_type pl) eqn:Et; cbn [pl_type pl_load pl_vmin pl_v0 pl_pos pl_lower pl_upper pl_bc pl_fric]; rewrite ?Et; cbn [pl_type pl_load pl_vmin pl_v0 pl_pos pl_lower pl_upper pl_bc pl_fric];
      try (f_equal; numR; ring); destruct dim as [|[|[|[|d]]]]; cbn [pl_type pl_load pl_vmin pl_v0 pl_pos pl_lower pl_upper pl_bc pl_fric pl_v]; f_equal; numR; ring.
  Qed.
  Lemma grid_nodes_shift : forall axes, grid_nodes (mva axes) = grid_nodes axes.
  Proof.
    intros axes. unfold grid_nodes. assert (E : forall l k, map ax_n (by_axis a move_axis k l) = map ax_n l) by (induction l as [|x l IH]; intros; cbn [by_axis map]; auto; now rewrite ax_n_shift, IH). now rewrite E.
  Qed.

  (** A step. *)
  Definition meshed (s : St R) : Prop := s_step s = 0%Z \/ length (s_mesh s) = dim.
  Theorem step_shift : forall af sc s, use_pbc p = false -> change_pos p = false -> meshed s ->
    advanceStep svd uabs af p' sc (move_state a s) = outcome (move_state a) (advanceStep svd uabs af p sc s).
  Proof.
    intros af sc s U C M. unfold advanceStep. rewrite out_bind.
    assert (Eu : use_pbc p' = false) by (destruct Sc as (-> & _); exact U).
    assert (E1 : updateDt p' (move_state a s) = outcome (move_state a) (updateDt p s)).
    { unfold updateDt. cbn [s_p move_state p_v move_particles]. rewrite out_bind. apply bind_ext. intros sp _. destruct Sc as (-> & _). reflexivity. }
    rewrite E1, bind_out. apply bind_ext. intros s1 H1. rewrite out_bind.
    assert (M1 : meshed s1). { unfold updateDt in H1. apply bind_Ok in H1. destruct H1 as (sp & _ & H1). injection H1 as <-. exact M. }
    assert (E2 : remesh af p' (move_state a s1) = outcome (move_state a) (remesh af p s1)).
    { unfold remesh. rewrite U, Eu. cbn [s_step move_state s_p s_mesh p_x move_particles]. destruct (s_step s1 =? 0)%Z.
      - rewrite (init_shift af p p') by auto. rewrite bind_out, out_bind. apply bind_ext. intros am _. rewrite by_axis_fst, by_axis_snd. reflexivity.
      - rewrite (cont_shift af p p') by auto. rewrite bind_out, out_bind. apply bind_ext. intros; reflexivity. }
    rewrite E2, bind_out. apply bind_ext. intros s2 H2. rewrite out_bind.
    assert (L : length (s_axes s2) = dim).
    { unfold remesh in H2. rewrite U in H2. destruct (Z.eqb_spec (s_step s1) 0).
      - apply bind_Ok in H2. destruct H2 as (am & Ha & H2). injection H2 as <-. cbn [s_axes with_grid]. rewrite map_length. eapply init_length; eauto.
      - apply bind_Ok in H2. destruct H2 as (ax & Ha & H2). injection H2 as <-. cbn [s_axes with_grid]. eapply cont_length; eauto. now destruct M1. }
    unfold pbc_before. rewrite U, Eu. cbn [bind]. rewrite out_bind. unfold npn. cbn [s_axes s_p s_Np s_plates s_dt s_grav move_state].
    assert (Er : resizeGrid (mva (s_axes s2)) = resizeGrid (s_axes s2)) by (unfold resizeGrid; now rewrite grid_nodes_shift). rewrite Er, grid_nodes_shift, p2g_shift by auto.
    apply bind_ext. intros g1 _. rewrite out_bind. rewrite euler_shift by auto. apply bind_ext. intros g2 _.
    unfold pbc_after. rewrite U, Eu. cbn [bind]. rewrite out_bind. cbn [s_axes s_p s_Np s_plates s_dt s_grav s_nodes with_nodes move_state].
    rewrite g2p_shift by auto. rewrite bind_out. apply bind_ext. intros [P2 fl2] _. cbn [first fst snd].
    set (t := with_exit (with_p (with_nodes s2 g2) P2) (fst fl2)).
    change (with_exit (with_p (with_nodes (move_state a s2) g2) (move_particles a P2)) (fst fl2)) with (move_state a t).
    assert (Lt : length (s_axes t) = dim) by exact L.
    assert (E3 : musl_part svd uabs p' sc (move_state a t) = outcome (move_state a) (musl_part svd uabs p sc t)).
    { unfold musl_part. assert (Em : use_musl p' = use_musl p) by (destruct Sc as (-> & _); reflexivity). rewrite Em. destruct (use_musl p); [|reflexivity].
      unfold npn. cbn [s_axes s_p s_Np s_plates s_dt s_grav s_nodes move_state]. rewrite musl_v_shift, bind_out, out_bind. apply bind_ext. intros [P3 fl3] _. cbn [first fst snd].
      rewrite musl_grid_shift, out_bind by auto. apply bind_ext. intros g3 _. unfold plast. rewrite def_shift, bind_out, out_bind by auto. apply bind_ext. intros [P4 fl4] _. reflexivity. }
    rewrite E3, bind_out, out_bind. apply bind_ext. intros s7 _. unfold npn. cbn [s_axes s_p s_Np s_plates s_dt s_grav s_nodes s_time move_state].
    rewrite pos_shift, bind_out, out_bind by auto. apply bind_ext. intros [P5 fl5] _. cbn [first fst snd outcome].
    assert (Ef : frame_dt p' = frame_dt p) by (destruct Sc as (-> & _); reflexivity). rewrite Ef. f_equal.
    unfold move_state, with_plates, with_p. cbn [s_p s_Np s_nadd s_axes s_nodes s_mesh s_time s_frame s_step s_dt s_grav s_gravf s_plates s_exit]. f_equal. rewrite !map_map. apply map_ext. intros pl. apply plate_move_shift.
  Qed.
  Lemma step_meshed : forall af sc s s1, use_pbc p = false -> meshed s -> advanceStep svd uabs af p sc s = Ok s1 -> length (s_mesh s1) = dim.
  Proof.
    intros af sc s s1 U M H. unfold advanceStep in H. apply bind_Ok in H. destruct H as (t1 & H1 & H). apply bind_Ok in H. destruct H as (t2 & H2 & H).
    unfold pbc_before, pbc_after in H. rewrite U in H. cbn [bind] in H. cbv zeta in H. apply bind_Ok in H. destruct H as (g1 & _ & H). apply bind_Ok in H. destruct H as (g2 & _ & H). cbn [bind] in H.
    apply bind_Ok in H. destruct H as (r & _ & H). apply bind_Ok in H. destruct H as (t7 & H7 & H). apply bind_Ok in H. destruct H as (q & _ & H).
    assert (Em : s_mesh s1 = s_mesh t2).
    { apply (f_equal (fun r => match r with Ok x => s_mesh x | _ => [] end)) in H. cbn [s_mesh with_plates with_p] in H. rewrite <- H.
      unfold musl_part in H7. destruct (use_musl p).
      - apply bind_Ok in H7. destruct H7 as (r7 & _ & H7). apply bind_Ok in H7. destruct H7 as (g3 & _ & H7). apply bind_Ok in H7. destruct H7 as (d & _ & H7).
        apply (f_equal (fun r => match r with Ok x => s_mesh x | _ => [] end)) in H7. now rewrite <- H7.
      - apply (f_equal (fun r => match r with Ok x => s_mesh x | _ => [] end)) in H7. now rewrite <- H7. }
    rewrite Em. clear - H1 H2 M U.
    assert (M1 : meshed t1). { unfold updateDt in H1. apply bind_Ok in H1. destruct H1 as (sp & _ & H1). injection H1 as <-. exact M. }
    unfold remesh in H2. rewrite U in H2. destruct (Z.eqb_spec (s_step t1) 0).
    - apply bind_Ok in H2. destruct H2 as (am & Ha & H2). injection H2 as <-. cbn [s_mesh with_grid]. rewrite map_length. eapply init_length; eauto.
    - apply bind_Ok in H2. destruct H2 as (ax & Ha & H2). injection H2 as <-. cbn [s_mesh with_grid]. now destruct M1.
  Qed.
  Lemma tick_shift : forall s, tick p' (move_state a s) = move_state a (tick p s).
  Proof. intros s. unfold tick. cbn [s_time s_dt s_step s_frame move_state]. destruct Sc as (-> & _). change (frame_dt (with_scene p (grid_ref p') (objects p'))) with (frame_dt p). change (min_dt (with_scene p (grid_ref p') (objects p'))) with (min_dt p). destruct (_ <? _)%num; reflexivity. Qed.
  Lemma tick_mesh : forall s, s_mesh (tick p s) = s_mesh s.
  Proof. intros s. unfold tick. destruct (_ <? _)%num; reflexivity. Qed.
  Lemma save_shift : forall s, save_frame p' (move_state a s) = map (move_output a) (save_frame p s).
  Proof. intros. destruct Sc as (-> & _). unfold save_frame. cbn [save_sim save_grid with_scene]. destruct (save_sim p), (save_grid p); reflexivity. Qed.
  Notation mout := (fun r : Stop * St R * list (Ev R) => (fst (fst r), move_state a (snd (fst r)), map (move_output a) (snd r))).
  Lemma loop_shift : forall fuel af sch k s, use_pbc p = false -> change_pos p = false -> meshed s ->
    sim_loop svd uabs fuel af p' sch k (move_state a s) = outcome mout (sim_loop svd uabs fuel af p sch k s).
  Proof.
    intros fuel af sch k s U C. revert k s. induction fuel as [|fuel IH]; intros k s M; cbn [sim_loop];
      (assert (Ee : end_frame p' = end_frame p) by (destruct Sc as (-> & _); reflexivity)); rewrite Ee; cbn [s_frame move_state]; destruct (s_frame s <? end_frame p)%Z; try reflexivity.
    change (mkSt (move_particles a (s_p s)) (s_Np s) (s_nadd s) (by_axis a move_axis 0 (s_axes s)) (s_nodes s) (by_axis a move_mesh 0 (s_mesh s)) (s_time s) (s_frame s) (s_step s) (s_dt s) (s_grav s) (s_gravf s) (map (move_plate a) (s_plates s)) (s_exit s)) with (move_state a s).
    rewrite step_shift by auto. rewrite bind_out, out_bind. apply bind_ext. intros s1 E. change (s_exit (move_state a s1)) with (s_exit s1). destruct (s_exit s1); [reflexivity|].
    rewrite tick_shift, save_shift. change (s_frame (move_state a (tick p s1))) with (s_frame (tick p s1)). change (s_frame (move_state a s1)) with (s_frame s1).
    assert (Ea : at_end p' (move_state a (tick p s1)) = at_end p (tick p s1)) by (destruct Sc as (-> & _); reflexivity). rewrite Ea.
    destruct (at_end p (tick p s1)).
    - cbn [outcome fst snd]. rewrite map_app. destruct (s_frame (tick p s1) =? s_frame s1)%Z; reflexivity.
    - rewrite IH by (right; rewrite tick_mesh; eapply step_meshed; eauto). rewrite bind_out, out_bind. apply bind_ext. intros [[st s2] ev] _. cbn [outcome fst snd]. rewrite map_app. destruct (s_frame (tick p s1) =? s_frame s1)%Z; reflexivity.
  Qed.
  Theorem sim_shift : forall fuel af init sch s, use_pbc p = false -> change_pos p = false -> meshed s ->
    simulate svd uabs fuel af p' init sch (move_state a s) = outcome mout (simulate svd uabs fuel af p init sch s).
  Proof.
    intros fuel af init sch s U C M. unfold simulate. destruct init; cbn [negb]; [|reflexivity].
    assert (Eo : model_ok p' = model_ok p) by (destruct Sc as (-> & _); reflexivity). rewrite Eo. destruct (model_ok p); cbn [negb]; [|reflexivity].
    change (s_exit (move_state a s)) with (s_exit s). destruct (s_exit s); [reflexivity|].
    assert (Es : sim_start p' (move_state a s) = move_state a (sim_start p s)).
    { destruct Sc as (-> & _). unfold sim_start, move_state, fill_muI. cbn [s_p s_Np s_nadd s_axes s_nodes s_mesh s_time s_frame s_step s_dt s_grav s_gravf s_plates s_exit use_mibf with_scene plastic_model]. destruct (use_mibf p); reflexivity. }
    rewrite Es, loop_shift, bind_out, out_bind by auto. apply bind_ext. intros [[st s2] ev] _. cbn [outcome fst snd].
    assert (Ev : save_sim p' = save_sim p) by (destruct Sc as (-> & _); reflexivity). rewrite Ev. change (s_step (move_state a s2)) with (s_step s2). rewrite !map_app. destruct (save_sim p), st; reflexivity.
  Qed.
  End Scene.
End ShiftP.
