(** * ConsProofs: mass, momentum and averages of the particle-to-grid transfer. *)
From Coq Require Import Reals ZArith Lra Lia List Bool Permutation.
From Verif Require Import Num NumR Tools Lin Types Remesh Objects Transfer Save Spec LinProofs ResProofs
  KernelProofs GridProofs StencilProofs IndexProofs AccumProofs GradProofs P2GProofs.
Import ListNotations.
Local Open Scope R_scope.

Section Cons.
  Context {G : Geo R} {GL : GeoLaws G}.
  Variable p : Par R.
  Hypothesis Hdx : 0 < dx p.

  Lemma wmin_val : w_min (A := R) = 1 / 10000000000000000000000000.
  Proof. unfold w_min. numR. reflexivity. Qed.
  Lemma wmin_pos : 0 < w_min (A := R).
  Proof. rewrite wmin_val. lra. Qed.
  Lemma act_true : forall it : Item R, act it = true -> 0 < it_w it.
  Proof. intros it H. unfold act in H. apply Rltb_true in H. pose proof wmin_pos. lra. Qed.
  Lemma act_false : forall it : Item R, act it = false -> it_w it <= w_min.
  Proof. intros it H. unfold act in H. apply Rltb_false in H. auto. Qed.

  (** ** Particle data from the arrays *)
  Lemma rd_lt : forall X (l : list X) i, (i < length l)%nat -> exists x, rd l (Z.of_nat i) = Ok x /\ nth_error l i = Some x.
  Proof.
    intros X l i H. destruct (nth_error l i) eqn:E.
    - exists x. rewrite rd_nat, E. auto.
    - apply nth_error_None in E. lia.
  Qed.
  Lemma rd_nth : forall X (l : list X) i x, rd l (Z.of_nat i) = Ok x -> nth_error l i = Some x.
  Proof. intros X l i x H. rewrite rd_nat in H. destruct (nth_error l i); congruence. Qed.
  Lemma map_nth_list : forall X Y (f : X -> Y) (ds : list X) (l : list Y), length l = length ds ->
    (forall i d, nth_error ds i = Some d -> nth_error l i = Some (f d)) -> map f ds = l.
  Proof.
    intros X Y f ds l L H. apply nth_error_ext. intros i. rewrite nth_error_map. destruct (nth_error ds i) eqn:E; simpl.
    - symmetry. auto.
    - symmetry. apply nth_error_None. apply nth_error_None in E. lia.
  Qed.
  Lemma getd_exists : forall P n, length (p_x P) = n -> length (p_v P) = n -> length (p_tau P) = n ->
    (flip_ratio p < 0 -> length (p_B P) = n) -> (use_mibf p = true -> length (p_hist P) = n) ->
    exists ds, mapM (getd p P) (seq 0 n) = Ok ds /\ length ds = n /\
      map d_x ds = p_x P /\ map d_v ds = p_v P /\ map d_tau ds = p_tau P /\
      (flip_ratio p < 0 -> map d_B ds = p_B P) /\ (use_mibf p = true -> map d_mui ds = map (fun h => h_muI h) (p_hist P)).
  Proof.
    intros P n Lx Lv Lt LB Lh.
    assert (H : forall i, In i (seq 0 n) -> exists d, getd p P i = Ok d /\ nth_error (p_x P) i = Some (d_x d) /\
      nth_error (p_v P) i = Some (d_v d) /\ nth_error (p_tau P) i = Some (d_tau d) /\
      (flip_ratio p < 0 -> nth_error (p_B P) i = Some (d_B d)) /\
      (use_mibf p = true -> nth_error (map (fun h => h_muI h) (p_hist P)) i = Some (d_mui d))).
    { intros i Hi. apply in_seq in Hi. unfold getd.
      destruct (rd_lt _ (p_x P) i) as (x & -> & Ex); [lia|]. destruct (rd_lt _ (p_tau P) i) as (t & -> & Et); [lia|].
      destruct (rd_lt _ (p_v P) i) as (v & -> & Ev); [lia|]. cbn [bind]. rewrite nofZ_R. numR.
      assert (HB : exists B, (if Rltb (flip_ratio p) 0 then rd (p_B P) (Z.of_nat i) else Ok mzero) = Ok B /\
        (flip_ratio p < 0 -> nth_error (p_B P) i = Some B)).
      { destruct (Rltb_spec (flip_ratio p) 0) as [Hf|Hf].
        - destruct (rd_lt _ (p_B P) i) as (B & EB & NB); [rewrite LB; auto; lia|]. eauto.
        - exists mzero. split; auto. intros; lra. }
      destruct HB as (B & -> & NB). cbn [bind].
      assert (HM : exists m, (if use_mibf p then h <- rd (p_hist P) (Z.of_nat i) ;; Ok (h_muI h) else Ok 0) = Ok m /\
        (use_mibf p = true -> nth_error (map (fun h => h_muI h) (p_hist P)) i = Some m)).
      { destruct (use_mibf p).
        - destruct (rd_lt _ (p_hist P) i) as (h & Eh & Nh); [rewrite Lh; auto; lia|]. rewrite Eh. simpl. eexists. split; [reflexivity|].
          intros _. rewrite nth_error_map, Nh. reflexivity.
        - eexists. split; [reflexivity|]. discriminate. }
      destruct HM as (m & -> & NM). cbn [bind]. eexists. split; [reflexivity|]. cbn [d_x d_v d_tau d_B d_mui]. auto 10. }
    assert (E : exists ds, mapM (getd p P) (seq 0 n) = Ok ds).
    { clear - H. revert H. generalize (seq 0 n). induction l; intros H; [exists []; reflexivity|].
      destruct (H a (or_introl eq_refl)) as (d & Ed & _). destruct IHl as [ds Eds]; [intros; apply H; now right|].
      exists (d :: ds). simpl. rewrite Ed, Eds. reflexivity. }
    destruct E as [ds E]. exists ds. split; auto. pose proof (mapM_length _ _ _ E) as L. rewrite seq_length in L.
    assert (Q : forall i d, nth_error ds i = Some d -> In i (seq 0 n) /\ getd p P i = Ok d).
    { intros i d Hd. assert (Hi : (i < n)%nat) by (rewrite <- L; apply nth_error_Some; congruence).
      split; [apply in_seq; lia|]. apply mapM_Ok in E.
      destruct (Forall2_nth_error _ _ _ _ _ E i i) as (y & Ey & Hy).
      - rewrite (nth_error_nth' _ 0%nat) by (rewrite seq_length; auto). now rewrite seq_nth.
      - congruence. }
    split; auto.
    repeat split; try (intros Hc); apply map_nth_list; rewrite ?map_length; try congruence; try (rewrite ?LB, ?Lh by auto; congruence);
      intros i d Hd; destruct (Q i d Hd) as (Hi & Ed); destruct (H i Hi) as (d' & Ed' & Q1 & Q2 & Q3 & Q4 & Q5);
      rewrite Ed in Ed'; injection Ed' as <-; auto.
  Qed.

  (** ** Distances inside a stencil *)
  Lemma item_dist : forall axes x it k, GridOk p axes -> Covered p axes x -> In it (items_of p axes x) -> (k < dim)%nat ->
    Rabs (vget (it_x it) k - vget x k) <= 2 * dx p.
  Proof.
    intros axes x it k GO C Hi Hk.
    assert (AX : forall a y i, In i (ax_list p a y) -> Rabs (ai_x i - y) <= 2 * dx p).
    { intros a y i Hin. unfold ax_list in Hin. apply in_map_iff in Hin. destruct Hin as (d & <- & Hd). unfold axitem; cbn [ai_x].
      rewrite ax_pos by auto. pose proof (frac_range p a y).
      apply Rabs_le. assert (0 <= IZR d <= 3) by (split; apply IZR_le; simpl in Hd; lia).
      split; nra. }
    destruct (axes_cases axes (go_dim _ _ GO)) as [(D & ax & ay & ->)|(D & ax & ay & az & ->)]; unfold items_of, items2, items3 in Hi.
    - apply in_flat_map in Hi. destruct Hi as (a & Ha & H). apply in_map_iff in H. destruct H as (b & <- & Hb).
      unfold item2; cbn [it_x]. assert (K : k = 0%nat \/ k = 1%nat) by lia. destruct K as [-> | ->]; autorewrite with geo; simpl Nat.eqb; cbv iota; eauto.
    - apply in_flat_map in Hi. destruct Hi as (a & Ha & H). apply in_flat_map in H. destruct H as (b & Hb & H).
      apply in_map_iff in H. destruct H as (c & <- & Hc). unfold item3; cbn [it_x].
      assert (K : k = 0%nat \/ k = 1%nat \/ k = 2%nat) by lia. destruct K as [-> | [-> | ->]]; autorewrite with geo; simpl Nat.eqb; cbv iota; eauto.
  Qed.

  (** ** One particle *)
  Definition lost (axes : list (Axis R)) (x : TV) (f : Item R -> R) : R :=
    Rsum (fun it => if act it then 0 else it_w it * f it) (items_of p axes x).
  Lemma kept_lost : forall axes x f,
    Rsum (fun it => if act it then it_w it * f it else 0) (items_of p axes x)
    = Rsum (fun it => it_w it * f it) (items_of p axes x) - lost axes x f.
  Proof.
    intros. unfold lost. rewrite <- Rsum_minus. apply Rsum_ext. intros it _. destruct (act it); lra.
  Qed.
  Lemma lost_bound : forall axes x f b, GridOk p axes -> Covered p axes x ->
    (forall it, In it (items_of p axes x) -> Rabs (f it) <= b) ->
    Rabs (lost axes x f) <= INR (Nat.pow 4 dim) * (w_min * b).
  Proof.
    intros axes x f b GO C H. destruct (stencil_cov p Hdx axes x GO C) as (_ & _ & S). unfold lost.
    eapply Rle_trans; [apply Rabs_Rsum|]. rewrite <- (sl_len _ _ _ _ S), <- Rsum_const. apply Rsum_le. intros it Hi.
    pose proof wmin_pos. pose proof (H it Hi). pose proof (Rabs_pos (f it)).
    destruct (act it) eqn:A.
    - rewrite Rabs_R0. apply Rmult_le_pos; lra.
    - rewrite Rabs_mult, (Rabs_pos_eq (it_w it)) by (apply (sl_w _ _ _ _ S); auto).
      pose proof (act_false it A). pose proof (sl_w _ _ _ _ S it Hi). apply Rmult_le_compat; auto.
  Qed.
  Lemma lost_exact : forall axes x f, GridOk p axes -> Covered p axes x -> no_tiny_weights p axes x -> lost axes x f = 0.
  Proof.
    intros axes x f GO C H. destruct (stencil_cov p Hdx axes x GO C) as (E & _ & _). unfold lost. apply Rsum_zero. intros it Hi.
    destruct (act it) eqn:A; auto. apply act_false in A. rewrite wmin_val in A. destruct (H _ it E Hi) as [W|W]; [rewrite W; ring|lra].
  Qed.
  Lemma lost_sign : forall axes x, GridOk p axes -> Covered p axes x -> 0 <= lost axes x (fun _ => 1).
  Proof.
    intros axes x GO C. destruct (stencil_cov p Hdx axes x GO C) as (_ & _ & S). unfold lost. apply Rsum_nonneg. intros it Hi.
    destruct (act it); [lra|]. pose proof (sl_w _ _ _ _ S it Hi). lra.
  Qed.
  Lemma affine_sum : forall axes d k, GridOk p axes -> Covered p axes (d_x d) -> (k < dim)%nat ->
    Rsum (fun it => it_w it * (vget (d_v d) k + affine p d it k)) (items_of p axes (d_x d)) = vget (d_v d) k.
  Proof.
    intros axes d k GO C Hk. destruct (stencil_cov p Hdx axes _ GO C) as (_ & _ & S).
    rewrite (Rsum_ext _ (fun it => it_w it * vget (d_v d) k + it_w it * affine p d it k)) by (intros; ring).
    rewrite Rsum_plus, (Rsum_scalr _ (fun it => it_w it)), (sl_1 _ _ _ _ S). unfold affine. destruct (Rltb (flip_ratio p) 0).
    - rewrite (Rsum_ext _ (fun it => apicDinverse p * sumd (fun l => mget (d_B d) k l * (it_w it * (vget (it_x it) l - vget (d_x d) l))))).
      + rewrite Rsum_scal, <- sumd_Rsum_swap. rewrite (sumd_ext _ (fun _ => 0)); [rewrite sumd_0; ring|].
        intros l Hl. rewrite Rsum_scal, (sl_x _ _ _ _ S l Hl). ring.
      + intros it _. autorewrite with geo.
        rewrite (sumd_ext (fun l => mget (d_B d) k l * (it_w it * (vget (it_x it) l - vget (d_x d) l)))
          (fun l => it_w it * (mget (d_B d) k l * vget (vsub (it_x it) (d_x d)) l))).
        * rewrite sumd_scal. ring.
        * intros l Hl. autorewrite with geo. ring.
    - rewrite (Rsum_zero (fun it => it_w it * 0)) by (intros; ring). ring.
  Qed.
  Lemma affine_bound : forall axes d it k, GridOk p axes -> Covered p axes (d_x d) -> In it (items_of p axes (d_x d)) -> (k < dim)%nat ->
    Rabs (affine p d it k) <= if Rltb (flip_ratio p) 0 then apicDinverse p * (2 * dx p) * sumd (fun l => Rabs (mget (d_B d) k l)) else 0.
  Proof.
    intros axes d it k GO C Hi Hk. unfold affine. destruct (Rltb (flip_ratio p) 0); [|rewrite Rabs_R0; lra].
    assert (HD : 0 <= apicDinverse p).
    { unfold apicDinverse. destruct (spline p); rewrite nofZ_R; numR; [lra| |]; apply Rlt_le, Rdiv_lt_0_compat; nra. }
    autorewrite with geo. rewrite Rabs_mult, (Rabs_pos_eq (apicDinverse p)) by auto.
    rewrite (Rmult_comm (Rabs _)), Rmult_assoc. apply Rmult_le_compat_l; auto.
    rewrite <- sumd_scal, !sumd_Rsum. eapply Rle_trans; [apply Rabs_Rsum|]. apply Rsum_le. intros l Hl0. apply in_seq in Hl0.
    assert (Hl : (l < dim)%nat) by lia. rewrite Rabs_mult. autorewrite with geo. rewrite Rmult_comm. apply Rmult_le_compat_r; [apply Rabs_pos|].
    eapply item_dist; eauto.
  Qed.

  (** ** The whole transfer *)
  (** The arrays P2G reads have [n] entries. *)
  Definition readable (P : Particles R) (n : nat) : Prop :=
    length (p_x P) = n /\ length (p_v P) = n /\ length (p_tau P) = n /\ (flip_ratio p < 0 -> length (p_B P) = n) /\ (use_mibf p = true -> length (p_hist P) = n).
  Lemma p2g_run_gen : forall axes P n sched, GridOk p axes -> readable P n ->
    (forall x, In x (p_x P) -> in_grid p axes x) -> thread_schedule sched n ->
    exists ds nodes, mapM (getd p P) (seq 0 n) = Ok ds /\ length ds = n /\
      map d_x ds = p_x P /\ map d_v ds = p_v P /\ map d_tau ds = p_tau P /\
      (flip_ratio p < 0 -> map d_B ds = p_B P) /\ (use_mibf p = true -> map d_mui ds = map (fun h => h_muI h) (p_hist P)) /\
      (forall d, In d ds -> Covered p axes (d_x d)) /\
      p2g p axes P sched (resizeGrid axes) = Ok (map (p2g_finish_node p) nodes) /\
      Acc _ _ _ (nval p) (nkeep p) (resizeGrid axes) (allops p axes ds) nodes.
  Proof.
    intros axes P n sched GO (R1 & R2 & R3 & R4 & R5) IG Sc.
    destruct (getd_exists P n) as (ds & E & L & X & V & T & B & M); auto.
    assert (C : forall d, In d ds -> Covered p axes (d_x d)).
    { intros d Hd. apply in_grid_covered; auto. apply IG. rewrite <- X. apply in_map; auto. }
    destruct (accumulate_rep p Hdx axes P n ds sched (resizeGrid axes) GO E C Sc (resize_length p axes GO)) as (nodes & EA & A).
    exists ds, nodes. unfold p2g. rewrite EA. cbn [bind]. auto 15.
  Qed.
  Lemma p2g_run : forall axes P n sched, GridOk p axes -> consistent P n ->
    (forall x, In x (p_x P) -> in_grid p axes x) -> thread_schedule sched n ->
    exists ds nodes, mapM (getd p P) (seq 0 n) = Ok ds /\ length ds = n /\
      map d_x ds = p_x P /\ map d_v ds = p_v P /\ map d_tau ds = p_tau P /\
      (flip_ratio p < 0 -> map d_B ds = p_B P) /\ (use_mibf p = true -> map d_mui ds = map (fun h => h_muI h) (p_hist P)) /\
      (forall d, In d ds -> Covered p axes (d_x d)) /\
      p2g p axes P sched (resizeGrid axes) = Ok (map (p2g_finish_node p) nodes) /\
      Acc _ _ _ (nval p) (nkeep p) (resizeGrid axes) (allops p axes ds) nodes.
  Proof. intros axes P n sched GO CO IG Sc. destruct CO. apply p2g_run_gen; auto. repeat split; auto. Qed.

  Lemma acc_mass_nonneg : forall axes ds nodes j nd, GridOk p axes -> (forall d, In d ds -> Covered p axes (d_x d)) ->
    Acc _ _ _ (nval p) (nkeep p) (resizeGrid axes) (allops p axes ds) nodes -> nth_error nodes j = Some nd ->
    0 <= nd_m nd /\ (nd_m nd = 0 -> forall c, nval p c nd = 0).
  Proof.
    intros axes ds nodes j nd GO C A E. pose proof (rep_node p axes ds nodes j nd A E) as V.
    assert (W : forall o, In o (allops p axes ds) -> 0 < nval p Cm (snd o)).
    { intros o Ho. unfold allops in Ho. apply in_flat_map in Ho. destruct Ho as (d & Hd & Ho). unfold dops in Ho.
      apply in_map_iff in Ho. destruct Ho as (it & <- & Hit). apply filter_In in Hit. cbn [snd]. rewrite delta_m. apply act_true; tauto. }
    assert (N0 : forall o, In o (allops p axes ds) -> 0 <= at_j _ _ (nval p) j Cm o).
    { intros o Ho. unfold at_j. destruct (Z.eqb _ _); [apply Rlt_le; auto|lra]. }
    pose proof (V Cm) as Vm. change (nval p Cm nd) with (nd_m nd) in Vm. split.
    - rewrite Vm. apply Rsum_nonneg; auto.
    - intros Z0 c. rewrite Vm in Z0. rewrite V. apply Rsum_zero. intros o Ho.
      pose proof (Rsum_nonneg_0 _ _ N0 Z0 o Ho) as Q. unfold at_j in *. destruct (Z.eqb _ _); auto. specialize (W o Ho). lra.
  Qed.
  Lemma finish_momentum : forall axes ds nodes j nd k, GridOk p axes -> (forall d, In d ds -> Covered p axes (d_x d)) ->
    Acc _ _ _ (nval p) (nkeep p) (resizeGrid axes) (allops p axes ds) nodes -> nth_error nodes j = Some nd -> (k < dim)%nat ->
    nd_m (p2g_finish_node p nd) * vget (nd_v (p2g_finish_node p nd)) k = particle_mass p * nval p (Cv k) nd.
  Proof.
    intros axes ds nodes j nd k GO C A E Hk. destruct (acc_mass_nonneg axes ds nodes j nd GO C A E) as (M & Z).
    unfold p2g_finish_node; cbn [nd_m nd_v]. rewrite nofZ_R. numR. destruct (Rltb_spec 0 (nd_m nd)).
    - unfold nval. destruct (Nat.ltb_spec k dim); [|lia]. autorewrite with geo. numR. field. lra.
    - rewrite (Z ltac:(lra) (Cv k)). autorewrite with geo. ring.
  Qed.
  Lemma Rsum_nth_ext : forall X (f g : X -> R) l, (forall j x, nth_error l j = Some x -> f x = g x) -> Rsum f l = Rsum g l.
  Proof. intros X f g l H. apply Rsum_ext. intros x Hx. apply In_nth_error in Hx. destruct Hx as [j Hj]. eauto. Qed.

  Theorem p2g_mass : forall axes P n sched nodes, GridOk p axes -> consistent P n ->
    (forall x, In x (p_x P) -> in_grid p axes x) -> thread_schedule sched n ->
    p2g p axes P sched (resizeGrid axes) = Ok nodes ->
    Rsum (fun nd => nd_m nd) nodes = particle_mass p * (INR n - Rsum (fun x => lost axes x (fun _ => 1)) (p_x P)).
  Proof.
    intros axes P n sched nodes GO CO IG Sc H.
    destruct (p2g_run axes P n sched GO CO IG Sc) as (ds & nds & E & L & X & V & T & B & M & C & R & A).
    rewrite H in R. injection R as ->. rewrite Rsum_map. cbn [p2g_finish_node nd_m].
    rewrite (Rsum_ext _ (fun nd => particle_mass p * nval p Cm nd)) by (intros; numR; simpl; ring).
    rewrite Rsum_scal. f_equal. rewrite (rep_total p Hdx axes ds nds Cm GO C A).
    rewrite <- X, Rsum_map, <- L. rewrite <- (Rmult_1_r (INR (length ds))), <- Rsum_const, <- Rsum_minus. apply Rsum_ext.
    intros d Hd. rewrite (Rsum_ext _ (fun it => if act it then it_w it * 1 else 0)).
    - rewrite (kept_lost axes (d_x d) (fun _ => 1)). destruct (stencil_cov p Hdx axes _ GO (C d Hd)) as (_ & _ & S).
      rewrite (Rsum_scalr _ (fun it => it_w it)), (sl_1 _ _ _ _ S). lra.
    - intros it _. rewrite delta_m. destruct (act it); lra.
  Qed.

  Theorem p2g_momentum : forall axes P n sched nodes k, GridOk p axes -> consistent P n ->
    (forall x, In x (p_x P) -> in_grid p axes x) -> thread_schedule sched n -> (k < dim)%nat ->
    p2g p axes P sched (resizeGrid axes) = Ok nodes ->
    exists ds, length ds = n /\ map d_x ds = p_x P /\ map d_v ds = p_v P /\ (flip_ratio p < 0 -> map d_B ds = p_B P) /\
      (forall d, In d ds -> Covered p axes (d_x d)) /\
    Rsum (fun nd => nd_m nd * vget (nd_v nd) k) nodes
    = particle_mass p * (Rsum (fun v => vget v k) (p_v P)
        - Rsum (fun d => lost axes (d_x d) (fun it => vget (d_v d) k + affine p d it k)) ds).
  Proof.
    intros axes P n sched nodes k GO CO IG Sc Hk H.
    destruct (p2g_run axes P n sched GO CO IG Sc) as (ds & nds & E & L & X & V & T & B & M & C & R & A).
    exists ds. rewrite H in R. injection R as ->. repeat (split; [auto|]). rewrite Rsum_map.
    rewrite (Rsum_nth_ext _ _ (fun nd => particle_mass p * nval p (Cv k) nd)) by (intros; eapply finish_momentum; eauto).
    rewrite Rsum_scal. f_equal. rewrite (rep_total p Hdx axes ds nds (Cv k) GO C A).
    rewrite <- V, Rsum_map, <- Rsum_minus. apply Rsum_ext. intros d Hd.
    rewrite (Rsum_ext _ (fun it => if act it then it_w it * (vget (d_v d) k + affine p d it k) else 0)).
    - rewrite (kept_lost axes (d_x d)). rewrite affine_sum; auto.
    - intros it _. rewrite delta_v; auto.
  Qed.

  (** ** Averages *)
  (** The total weight particle [d] gives to node [j]. *)
  Definition wij (axes : list (Axis R)) (j : nat) (d : PD) : R :=
    Rsum (fun it => if act it then if (it_idx it =? Z.of_nat j)%Z then it_w it else 0 else 0) (items_of p axes (d_x d)).
  Lemma wij_nonneg : forall axes j d, 0 <= wij axes j d.
  Proof.
    intros. unfold wij. apply Rsum_nonneg. intros it Hi. destruct (act it) eqn:A; [|lra]. apply act_true in A. destruct (Z.eqb _ _); lra.
  Qed.
  Lemma wij_touch : forall axes j d, wij axes j d <> 0 ->
    exists it, In it (items_of p axes (d_x d)) /\ it_idx it = Z.of_nat j /\ 0 < it_w it.
  Proof.
    intros axes j d H. unfold wij in H. induction (items_of p axes (d_x d)) as [|it l IH]; simpl in H; [lra|].
    destruct (act it) eqn:A.
    - destruct (Z.eqb_spec (it_idx it) (Z.of_nat j)) as [E|E].
      + exists it. apply act_true in A. simpl; auto.
      + destruct IH as (it' & ? & ?); [lra|]. exists it'; simpl; auto.
    - destruct IH as (it' & ? & ?); [lra|]. exists it'; simpl; auto.
  Qed.
  Lemma rep_wij : forall axes ds nodes j nd c f, Acc _ _ _ (nval p) (nkeep p) (resizeGrid axes) (allops p axes ds) nodes ->
    nth_error nodes j = Some nd -> (forall d it, nval p c (p2g_delta p d it) = it_w it * f d) ->
    nval p c nd = Rsum (fun d => wij axes j d * f d) ds.
  Proof.
    intros axes ds nodes j nd c f A E H. rewrite (rep_node p axes ds nodes j nd A E c). unfold allops. rewrite Rsum_flat_map.
    apply Rsum_ext. intros d _. unfold dops, wij. rewrite Rsum_map, Rsum_filter, <- Rsum_scalr. apply Rsum_ext. intros it _.
    unfold at_j. cbn [fst snd]. rewrite H. destruct (act it); [|ring]. destruct (Z.eqb _ _); ring.
  Qed.
  Lemma Rsum_combine_map : forall X (f : X -> R) (g : X -> R) l, Rsum (fun ab => fst ab * snd ab) (combine (map f l) (map g l)) = Rsum (fun x => f x * g x) l.
  Proof. induction l; simpl; auto. now rewrite IHl. Qed.

  Theorem p2g_average : forall axes P n sched nodes j nd, GridOk p axes -> consistent P n ->
    (forall x, In x (p_x P) -> in_grid p axes x) -> thread_schedule sched n -> 0 < particle_mass p ->
    p2g p axes P sched (resizeGrid axes) = Ok nodes -> nth_error nodes j = Some nd ->
    0 <= nd_m nd /\
    (nd_m nd = 0 -> nd_v nd = vzero) /\
    (0 < nd_m nd -> exists a : list R, length a = n /\ (forall y, In y a -> 0 <= y) /\ Rsum (fun y => y) a = 1 /\
      (forall i y x, nth_error a i = Some y -> nth_error (p_x P) i = Some x -> y <> 0 ->
         exists items it, stencil base_p2g p axes x = Ok items /\ In it items /\ it_idx it = Z.of_nat j /\ 0 < it_w it) /\
      (0 <= flip_ratio p -> forall k, (k < dim)%nat ->
         vget (nd_v nd) k = Rsum (fun ab => fst ab * snd ab) (combine a (map (fun v => vget v k) (p_v P)))) /\
      (use_mibf p = true -> nd_fr nd = Rsum (fun ab => fst ab * snd ab) (combine a (map (fun h => h_muI h) (p_hist P))))).
  Proof.
    intros axes P n sched nodes j nd GO CO IG Sc Hpm H Hj.
    destruct (p2g_run axes P n sched GO CO IG Sc) as (ds & nds & E & L & X & V & T & B & M & C & R & A).
    rewrite H in R. injection R as ->. rewrite nth_error_map in Hj.
    destruct (nth_error nds j) as [nd0|] eqn:E0; simpl in Hj; [|discriminate]. injection Hj as <-.
    destruct (acc_mass_nonneg axes ds nds j nd0 GO C A E0) as (M0 & Z0). cbn [p2g_finish_node nd_m nd_v nd_fr]. rewrite nofZ_R. numR.
    assert (Vm : nd_m nd0 = Rsum (fun d => wij axes j d * 1) ds).
    { apply (rep_wij axes ds nds j nd0 Cm (fun _ => 1) A E0). intros. rewrite delta_m. ring. }
    split; [nra|]. split.
    { intros Hz. assert (nd_m nd0 = 0) by nra. destruct (Rltb_spec 0 (nd_m nd0)); [lra|reflexivity]. }
    intros Hm. assert (Mp : 0 < nd_m nd0) by nra.
    exists (map (fun d => wij axes j d / nd_m nd0) ds). rewrite map_length. split; auto. split.
    { intros y Hy. apply in_map_iff in Hy. destruct Hy as (d & <- & _). pose proof (wij_nonneg axes j d).
      apply Rmult_le_pos; auto. apply Rlt_le, Rinv_0_lt_compat; auto. }
    split.
    { rewrite Rsum_map. unfold Rdiv. rewrite Rsum_scalr. rewrite (Rsum_ext _ (fun d => wij axes j d * 1)) by (intros; ring).
      rewrite <- Vm. field. lra. }
    split.
    { intros i y x Hy Hx Hn. rewrite nth_error_map in Hy. rewrite <- X, nth_error_map in Hx.
      destruct (nth_error ds i) as [d|] eqn:Ed; simpl in *; try discriminate. injection Hy as <-. injection Hx as <-.
      assert (W : wij axes j d <> 0). { intros W. apply Hn. rewrite W. unfold Rdiv. ring. }
      apply wij_touch in W. destruct W as (it & Hi & Hidx & Hw).
      destruct (stencil_cov p Hdx axes _ GO (C d (nth_error_In _ _ Ed))) as (S1 & _ & _).
      exists (items_of p axes (d_x d)), it. auto. }
    split.
    - intros Hf k Hk. destruct (Rltb_spec 0 (nd_m nd0)); [|lra]. autorewrite with geo. numR.
      rewrite <- V, map_map, Rsum_combine_map.
      assert (Vv : nval p (Cv k) nd0 = Rsum (fun d => wij axes j d * vget (d_v d) k) ds).
      { apply (rep_wij axes ds nds j nd0 (Cv k) (fun d => vget (d_v d) k) A E0). intros d it. rewrite delta_v by auto.
        unfold affine. destruct (Rltb_spec (flip_ratio p) 0); [lra|]. ring. }
      unfold nval in Vv. destruct (Nat.ltb_spec k dim); [|lia]. rewrite Vv.
      unfold Rdiv at 1. rewrite <- Rsum_scalr. apply Rsum_ext. intros; field; lra.
    - intros Hmib. rewrite Hmib. rewrite <- (M Hmib), Rsum_combine_map.
      assert (Vr : nval p Cr nd0 = Rsum (fun d => wij axes j d * d_mui d) ds).
      { apply (rep_wij axes ds nds j nd0 Cr d_mui A E0). intros d it. apply delta_r; auto. }
      unfold nval in Vr. rewrite Hmib in Vr. rewrite Vr. unfold Rdiv at 1. rewrite <- Rsum_scalr. apply Rsum_ext. intros; field; lra.
  Qed.

  (** A convex combination lies between bounds. *)
  Lemma convex_bounds : forall (a b : list R) lo hi, length a = length b -> (forall y, In y a -> 0 <= y) -> Rsum (fun y => y) a = 1 ->
    (forall y, In y b -> lo <= y <= hi) -> lo <= Rsum (fun ab => fst ab * snd ab) (combine a b) <= hi.
  Proof.
    intros a b lo hi L P S Bd.
    assert (H : forall l l', length l = length l' -> (forall y, In y l -> 0 <= y) -> (forall y, In y l' -> lo <= y <= hi) ->
      lo * Rsum (fun y => y) l <= Rsum (fun ab => fst ab * snd ab) (combine l l') <= hi * Rsum (fun y => y) l).
    { induction l; intros [|y l'] Ll Hp Hb; simpl in *; try lia; [lra|].
      specialize (IHl l' ltac:(lia) ltac:(auto) ltac:(auto)). pose proof (Hp a0 (or_introl eq_refl)). pose proof (Hb y (or_introl eq_refl)). nra. }
    specialize (H a b L P Bd). rewrite S in H. lra.
  Qed.
End Cons.
