(** * StepMech: mechanics of one time step: nodal balance, affine fields, momentum. *)
From Coq Require Import Reals ZArith Lra Lia List Bool Permutation.
From Flocq Require Import Core.Raux.
From Verif Require Import Num NumR Tools Lin Types Remesh Objects Transfer Rma Plastic Pbc Step Spec SpecStep LinProofs ResProofs
  KernelProofs GridProofs StencilProofs IndexProofs GradProofs AccumProofs P2GProofs ConsProofs MuslProofs RemeshProofs PloopProofs PbcProofs StepProofs.
Import ListNotations.
Local Open Scope R_scope.

Lemma mapM_ok_map : forall X Y (f : X -> res Y) (g : X -> Y) l, (forall x, In x l -> f x = Ok (g x)) -> mapM f l = Ok (map g l).
Proof. intros X Y f g l. induction l as [|x l IH]; intros H; cbn; auto. rewrite H by (now left). cbn. rewrite IH; auto. intros; apply H; now right. Qed.

Section Mech.
  Context {G : Geo R} {GL : GeoLaws G}.
  Variable p : Par R.
  Hypothesis Hdx : 0 < dx p.
  Hypothesis Hm : 0 < particle_mass p.
  Variable axes : list (Axis R).
  Hypothesis GO : GridOk p axes.
  Variable l : list (P1 R).
  Hypothesis Cov : forall q, In q l -> Covered p axes (q_x q).
  Hypothesis Nt : forall q, In q l -> no_tiny_weights p axes (q_x q).

  Notation its q := (items_of p axes (q_x q)).
  Definition pd (q : P1 R) : PD := mkPD (q_x q) (q_v q) (if Rltb (flip_ratio p) 0 then q_B q else mzero) (q_tau q) (if use_mibf p then h_muI (q_h q) else 0).

  Lemma getd_pack : forall i q, nth_error l i = Some q -> getd p (pack l) i = Ok (pd q).
  Proof.
    intros i q H. unfold getd, pd. cbv zeta. unfold pack. cbn [p_x p_v p_tau p_B p_hist]. rewrite !rd_map, H. cbn [bind].
    rewrite nofZ_R. numR. destruct (Rltb (flip_ratio p) 0); cbn [bind]; destruct (use_mibf p); cbn [bind]; rewrite ?rd_map, ?H; cbn [bind]; reflexivity.
  Qed.
  Lemma getds_pack : mapM (getd p (pack l)) (seq 0 (length l)) = Ok (map pd l).
  Proof.
    transitivity (Ok (map (fun i => pd (nth i l (mkP1 vzero vzero vzero vzero (mkHist 0 0 0 0 0 0) mzero mzero mzero))) (seq 0 (length l)))).
    - apply mapM_ok_map. intros i Hi. apply in_seq in Hi. apply getd_pack. now apply nth_error_nth'.
    - f_equal. set (d := mkP1 _ _ _ _ _ _ _ _). rewrite <- (map_nth_list _ _ (fun i => pd (nth i l d)) (seq 0 (length l)) (map pd l)); auto.
      + now rewrite map_length, seq_length.
      + intros i j Hj. assert (i < length l)%nat by (rewrite <- (seq_length (length l) 0); apply nth_error_Some; congruence).
        rewrite (nth_error_nth' _ 0%nat) in Hj by (now rewrite seq_length). rewrite seq_nth in Hj by auto. injection Hj as <-. cbn [Nat.add].
        rewrite nth_error_map, (nth_error_nth' l d) by auto. reflexivity.
  Qed.

  Definition ind (j : nat) (it : Item R) : R := if (it_idx it =? Z.of_nat j)%Z then 1 else 0.
  (** Nodal mass (in particles), momentum and force sums. *)
  Definition Mj (j : nat) : R := Rsum (fun q => Rsum (fun it => ind j it * it_w it) (its q)) l.
  Definition Pj (j k : nat) : R := Rsum (fun q => Rsum (fun it => ind j it * (it_w it * (vget (q_v q) k + affine p (pd q) it k))) (its q)) l.
  Definition Fj (j k : nat) : R := Rsum (fun q => Rsum (fun it => ind j it * vget (mvec (q_tau q) (it_g it)) k) (its q)) l.

  Lemma ind_cases : forall j it, ind j it = 1 /\ it_idx it = Z.of_nat j \/ ind j it = 0 /\ it_idx it <> Z.of_nat j.
  Proof. intros. unfold ind. destruct (Z.eqb_spec (it_idx it) (Z.of_nat j)); auto. Qed.
  Lemma sl : forall q, In q l -> SL p axes (q_x q) (its q).
  Proof. intros q Hq. apply (stencil_cov p Hdx axes (q_x q) GO (Cov q Hq)). Qed.
  Lemma act_or : forall q it, In q l -> In it (its q) -> act it = true \/ act it = false /\ it_w it = 0 /\ forall k, (k < dim)%nat -> vget (it_g it) k = 0.
  Proof.
    intros q it Hq Hit. destruct (act it) eqn:Ea; auto. right. split; auto.
    assert (W : it_w it = 0).
    { destruct (Nt q Hq (its q) it (proj1 (stencil_cov p Hdx axes (q_x q) GO (Cov q Hq))) Hit) as [W|W]; auto.
      apply act_false in Ea. rewrite wmin_val in Ea. lra. }
    split; auto. intros k Hk. apply (sl_0 _ _ _ _ (sl q Hq) it k Hit Hk W).
  Qed.
  Lemma mvec_g0 : forall (t : TM) (g : TV) k, (k < dim)%nat -> (forall k, (k < dim)%nat -> vget g k = 0) -> vget (mvec t g) k = 0.
  Proof. intros t g k Hk H. rewrite vget_mvec by auto. apply sumd_zero. intros j Hj. rewrite H by auto. lra. Qed.

  (** A component of a node as a sum over all particles and stencil nodes. *)
  Lemma ops_sum : forall j c f, (forall q it, In q l -> In it (its q) -> nval p c (p2g_delta p (pd q) it) = f q it) ->
    (forall q it, In q l -> In it (its q) -> act it = false -> f q it = 0) ->
    Rsum (at_j _ _ (nval p) j c) (allops p axes (map pd l)) = Rsum (fun q => Rsum (fun it => ind j it * f q it) (its q)) l.
  Proof.
    intros j c f Hf H0. unfold allops. rewrite Rsum_flat_map, Rsum_map. apply Rsum_ext. intros q Hq.
    unfold dops. rewrite Rsum_map, Rsum_filter. change (d_x (pd q)) with (q_x q). apply Rsum_ext. intros it Hit.
    unfold at_j. cbn [fst snd]. unfold ind. destruct (act it) eqn:Ea.
    - rewrite <- (Hf q it) by auto. destruct (it_idx it =? Z.of_nat j)%Z; lra.
    - rewrite (H0 q it) by auto. lra.
  Qed.

  Variable sched : list (list nat).
  Hypothesis Sc : thread_schedule sched (length l).
  Variable g1 : list (Node R).
  Hypothesis E1 : p2g p axes (pack l) sched (resizeGrid axes) = Ok g1.

  Lemma Mj_nonneg : forall j, 0 <= Mj j.
  Proof.
    intros. unfold Mj. apply Rsum_nonneg. intros q Hq. apply Rsum_nonneg. intros it Hit. pose proof (sl_w _ _ _ _ (sl q Hq) it Hit).
    destruct (ind_cases j it) as [(-> & _)|(-> & _)]; lra.
  Qed.
  Lemma Mj_ge : forall q it, In q l -> In it (its q) -> it_w it <= Mj (Z.to_nat (it_idx it)).
  Proof.
    intros q it Hq Hit. unfold Mj.
    assert (Z0 : (0 <= it_idx it)%Z) by (apply (sl_idx _ _ _ _ (sl q Hq) it Hit)).
    set (j := Z.to_nat (it_idx it)). assert (Ej : it_idx it = Z.of_nat j) by (unfold j; lia).
    assert (Nn : forall q' it', In q' l -> In it' (its q') -> 0 <= ind j it' * it_w it').
    { intros q' it' Hq' Hit'. pose proof (sl_w _ _ _ _ (sl q' Hq') it' Hit'). destruct (ind_cases j it') as [(-> & _)|(-> & _)]; lra. }
    apply Rle_trans with (Rsum (fun it => ind j it * it_w it) (its q)).
    - apply Rle_trans with (ind j it * it_w it).
      + destruct (ind_cases j it) as [(-> & _)|(_ & ?)]; [lra|contradiction].
      + refine (Rsum_ge_one (fun it => ind j it * it_w it) (its q) it _ Hit). intros y Hy; exact (Nn q y Hq Hy).
    - refine (Rsum_ge_one (fun q => Rsum (fun it => ind j it * it_w it) (its q)) l q _ Hq).
      intros q' Hq'. apply Rsum_nonneg. intros y Hy; exact (Nn q' y Hq' Hy).
  Qed.

  Theorem node1 : length g1 = length (resizeGrid axes) /\ forall j nd, nth_error g1 j = Some nd ->
    nd_m nd = Mj j * particle_mass p /\ nd_flip nd = vzero /\
    (forall k, (k < dim)%nat -> vget (nd_f nd) k = Fj j k) /\
    (0 < Mj j -> forall k, (k < dim)%nat -> vget (nd_v nd) k = Pj j k / Mj j) /\
    (Mj j = 0 -> nd_v nd = vzero).
  Proof.
    destruct (accumulate_rep p Hdx axes (pack l) (length l) (map pd l) sched (resizeGrid axes) GO getds_pack) as (nodes' & Ea & A); auto.
    { intros d Hd. apply in_map_iff in Hd. destruct Hd as (q & <- & Hq). exact (Cov q Hq). }
    { now apply (resize_length p). }
    unfold p2g in E1. rewrite Ea in E1. cbn [bind] in E1. injection E1 as <-. split; [rewrite map_length; exact (proj1 A)|].
    intros j nd Hj. rewrite nth_error_map in Hj. destruct (nth_error nodes' j) as [a|] eqn:Ha; [|discriminate]. injection Hj as <-.
    assert (Vm : nd_m a = Mj j).
    { change (nd_m a) with (nval p Cm a). rewrite (rep_node p axes (map pd l) nodes' j a A Ha Cm). unfold Mj.
      apply (ops_sum j Cm (fun q it => it_w it)); intros q it Hq Hit; [apply delta_m|].
      intros Hc. destruct (act_or q it Hq Hit) as [?|(_ & W & _)]; [congruence|auto]. }
    assert (Vv : forall k, (k < dim)%nat -> vget (nd_v a) k = Pj j k).
    { intros k Hk. transitivity (nval p (Cv k) a); [unfold nval; now rewrite (proj2 (Nat.ltb_lt k dim) Hk)|].
      rewrite (rep_node p axes (map pd l) nodes' j a A Ha (Cv k)). unfold Pj.
      apply (ops_sum j (Cv k) (fun q it => it_w it * (vget (q_v q) k + affine p (pd q) it k))); intros q it Hq Hit; [now rewrite delta_v|].
      intros Hc. destruct (act_or q it Hq Hit) as [?|(_ & W & _)]; [congruence|]. rewrite W. lra. }
    assert (Vf : forall k, (k < dim)%nat -> vget (nd_f a) k = Fj j k).
    { intros k Hk. transitivity (nval p (Cf k) a); [unfold nval; now rewrite (proj2 (Nat.ltb_lt k dim) Hk)|].
      rewrite (rep_node p axes (map pd l) nodes' j a A Ha (Cf k)). unfold Fj.
      apply (ops_sum j (Cf k) (fun q it => vget (mvec (q_tau q) (it_g it)) k)); intros q it Hq Hit; [now rewrite delta_f|].
      intros Hc. destruct (act_or q it Hq Hit) as [?|(_ & _ & W)]; [congruence|]. now apply mvec_g0. }
    pose proof (rep_flip p axes (map pd l) nodes' j a A Ha) as Fl. unfold nkeep in Fl. apply (f_equal fst) in Fl. cbn [fst zero_node nd_flip] in Fl.
    unfold p2g_finish_node. cbn [nd_m nd_flip nd_f nd_v]. rewrite nofZ_R. numR. rewrite Vm.
    split; [reflexivity|]. split; [exact Fl|]. split; [exact Vf|]. split.
    - intros H0 k Hk. destruct (Rltb_spec 0 (Mj j)); [|lra]. rewrite vget_divs, Vv by auto. reflexivity.
    - intros H0. destruct (Rltb_spec 0 (Mj j)); [lra|auto].
  Qed.

  (** ** Grid update without obstacles *)
  Hypothesis Ho : objects p = [].
  Variables (dt : R) (grav : TV) (esched : list nat) (g2 : list (Node R)).
  Hypothesis Es : Permutation esched (seq 0 (Z.to_nat (grid_nodes axes))).
  Hypothesis E2 : euler p [] dt grav axes esched g1 = Ok g2.

  Lemma no_collision : forall dt' fr X v, boundaryCollision p [] dt' fr X v = Ok v.
  Proof. intros. unfold boundaryCollision, objects_loop. rewrite Ho. reflexivity. Qed.

  Definition Vn (j k : nat) : R := vget (nd_v (nth j g2 zero_node)) k.
  Definition Dn (j k : nat) : R := vget (nd_flip (nth j g2 zero_node)) k.
  Definition incr (j k : nat) : R := dt * vget grav k - dt * particle_volume p * Fj j k / (Mj j * particle_mass p).

  Lemma len1 : Z.of_nat (length g1) = prodlen axes.
  Proof. rewrite (proj1 node1). now apply (resize_length p). Qed.
  Theorem node2 : length g2 = length g1 /\ forall j k, (j < length g2)%nat -> (k < dim)%nat ->
    nd_m (nth j g2 zero_node) = Mj j * particle_mass p /\
    (0 < Mj j -> Vn j k = Pj j k / Mj j + incr j k /\ Dn j k = incr j k) /\
    (Mj j = 0 -> Vn j k = 0 /\ Dn j k = 0).
  Proof.
    destruct (euler_spec p [] dt grav axes esched g1 g2 GO Es len1 E2) as (L2 & H). split; auto.
    intros j k Hj Hk. rewrite L2 in Hj.
    destruct (nth_error g1 j) as [nd|] eqn:En; [|apply nth_error_None in En; lia].
    destruct (proj2 node1 j nd En) as (A1 & A2 & A3 & A4 & A5). destruct (H j nd En) as (nd' & En' & Eg).
    assert (Et : nth j g2 zero_node = nd') by (apply nth_error_nth; exact Eg). unfold Vn, Dn. rewrite Et.
    unfold euler_node in En'. cbv zeta in En'. rewrite nofZ_R in En'. revert En'. numR. intros En'. rewrite A1 in En'.
    pose proof (Mj_nonneg j).
    destruct (Rltb_spec 0 (Mj j * particle_mass p)) as [Hp|Hp].
    - rewrite no_collision in En'. cbn [bind] in En'. injection En' as <-. cbn [nd_m nd_v nd_flip].
      assert (0 < Mj j) by nra. split; [reflexivity|]. split; [|lra]. intros _.
      autorewrite with geo. rewrite (A4 H1 k Hk), (A3 k Hk). unfold incr. split; field; split; lra.
    - injection En' as <-. assert (Mj j = 0) by nra. split; [auto|]. split; [lra|]. intros _. rewrite (A5 H1), A2. autorewrite with geo. auto.
  Qed.

  (** Sum over the stencils of a nodal function = sum over the nodes weighted with nodal mass. *)
  Lemma stencil_swap : forall (w : P1 R -> Item R -> R) (phi : nat -> R),
    Rsum (fun q => Rsum (fun it => w q it * phi (Z.to_nat (it_idx it))) (its q)) l
    = Rsum (fun j => Rsum (fun q => Rsum (fun it => ind j it * w q it) (its q)) l * phi j) (seq 0 (length g2)).
  Proof.
    intros w phi.
    rewrite (Rsum_ext (fun j => Rsum (fun q => Rsum (fun it => ind j it * w q it) (its q)) l * phi j)
      (fun j => Rsum (fun q => Rsum (fun it => ind j it * w q it * phi j) (its q)) l)).
    2:{ intros j _. rewrite Rmult_comm, <- Rsum_scal. apply Rsum_ext. intros q _. rewrite <- Rsum_scal. apply Rsum_ext. intros; lra. }
    rewrite Rsum_swap. apply Rsum_ext. intros q Hq. rewrite Rsum_swap. apply Rsum_ext. intros it Hit.
    pose proof (sl_idx _ _ _ _ (sl q Hq) it Hit) as Hi. rewrite <- len1, <- (proj1 node2) in Hi.
    set (j := Z.to_nat (it_idx it)).
    rewrite (Rsum_ext _ (fun i => if Nat.eqb j i then w q it * phi j else 0)).
    - symmetry. apply Rsum_seq_pick. unfold j. lia.
    - intros i _. unfold ind. destruct (Z.eqb_spec (it_idx it) (Z.of_nat i)), (Nat.eqb_spec j i); subst; try lra; exfalso; unfold j in *; lia.
  Qed.
  Lemma gather_total : forall phi : nat -> R,
    Rsum (fun q => Rsum (fun it => it_w it * phi (Z.to_nat (it_idx it))) (its q)) l = Rsum (fun j => Mj j * phi j) (seq 0 (length g2)).
  Proof. intros. apply (stencil_swap (fun _ it => it_w it)). Qed.
  Lemma sum_all : forall w : P1 R -> Item R -> R,
    Rsum (fun j => Rsum (fun q => Rsum (fun it => ind j it * w q it) (its q)) l) (seq 0 (length g2)) = Rsum (fun q => Rsum (fun it => w q it) (its q)) l.
  Proof.
    intros w. pose proof (stencil_swap w (fun _ => 1)) as S.
    rewrite (Rsum_ext (fun q => Rsum (fun it => w q it) (its q)) (fun q => Rsum (fun it => w q it * 1) (its q))) by (intros; apply Rsum_ext; intros; lra).
    rewrite S. apply Rsum_ext. intros; lra.
  Qed.

  Lemma affine_pd : forall q k, In q l -> (k < dim)%nat -> Rsum (fun it => it_w it * (vget (q_v q) k + affine p (pd q) it k)) (its q) = vget (q_v q) k.
  Proof. intros q k Hq Hk. apply (affine_sum p Hdx axes (pd q) k GO (Cov q Hq) Hk). Qed.

  (** Internal forces cancel. *)
  Lemma force_sum : forall q k, In q l -> (k < dim)%nat -> (spline p = Deg1 -> off_lines p axes (q_x q)) ->
    Rsum (fun it => vget (mvec (q_tau q) (it_g it)) k) (its q) = 0.
  Proof.
    intros q k Hq Hk Hl.
    rewrite (Rsum_ext _ (fun it => sumd (fun i => mget (q_tau q) k i * vget (it_g it) i))) by (intros; now rewrite vget_mvec).
    rewrite <- (sumd_Rsum_swap _ (fun i it => mget (q_tau q) k i * vget (it_g it) i)). apply sumd_zero. intros i Hi.
    rewrite Rsum_scal, (sl_g _ _ _ _ (sl q Hq)) by auto. lra.
  Qed.

  Hypothesis Ol : spline p = Deg1 -> forall q, In q l -> off_lines p axes (q_x q).

  (** Weighted nodal increments sum to total mass times gravity times dt. *)
  Lemma Fj_0 : forall j k, (k < dim)%nat -> Mj j = 0 -> Fj j k = 0.
  Proof.
    intros j k Hk H0. unfold Fj. apply Rsum_zero. intros q Hq. apply Rsum_zero. intros it Hit.
    destruct (ind_cases j it) as [(-> & Ej)|(-> & _)]; [|lra].
    pose proof (Mj_ge q it Hq Hit) as Hg. rewrite Ej, Nat2Z.id, H0 in Hg. pose proof (sl_w _ _ _ _ (sl q Hq) it Hit).
    rewrite mvec_g0; auto; [lra|]. intros i Hi. apply (sl_0 _ _ _ _ (sl q Hq) it i Hit Hi). lra.
  Qed.
  Lemma total_incr : forall k, (k < dim)%nat -> Rsum (fun j => Mj j * Dn j k) (seq 0 (length g2)) = INR (length l) * (dt * vget grav k).
  Proof.
    intros k Hk.
    rewrite (Rsum_ext _ (fun j => Mj j * (dt * vget grav k) + (- (dt * particle_volume p / particle_mass p)) * Fj j k)).
    - rewrite Rsum_plus, Rsum_scal.
      rewrite (Rsum_ext (fun j => Mj j * (dt * vget grav k)) (fun j => (dt * vget grav k) * Mj j)) by (intros; lra). rewrite Rsum_scal.
      unfold Mj, Fj. rewrite (sum_all (fun _ it => it_w it)), (sum_all (fun q it => vget (mvec (q_tau q) (it_g it)) k)).
      rewrite (Rsum_ext (fun q => Rsum (fun it => it_w it) (its q)) (fun _ => 1)) by (intros q Hq; apply (sl_1 _ _ _ _ (sl q Hq))).
      rewrite (Rsum_ext (fun q => Rsum (fun it => vget (mvec (q_tau q) (it_g it)) k) (its q)) (fun _ => 0)) by (intros q Hq; apply force_sum; auto).
      rewrite !Rsum_const. lra.
    - intros j Hj. apply in_seq in Hj. destruct (proj2 node2 j k ltac:(lia) Hk) as (_ & N1 & N2).
      pose proof (Mj_nonneg j). destruct (Req_dec (Mj j) 0) as [Z0|Z0].
      + rewrite (Fj_0 j k Hk Z0), Z0. lra.
      + destruct (N1 ltac:(lra)) as (_ & ->). unfold incr. field. split; lra.
  Qed.
  Lemma total_old : forall k, (k < dim)%nat -> Rsum (fun j => Mj j * (Vn j k - Dn j k)) (seq 0 (length g2)) = Rsum (fun q => vget (q_v q) k) l.
  Proof.
    intros k Hk. rewrite (Rsum_ext _ (fun j => Pj j k)).
    - unfold Pj. rewrite (sum_all (fun q it => it_w it * (vget (q_v q) k + affine p (pd q) it k))).
      apply Rsum_ext. intros q Hq. now apply affine_pd.
    - intros j Hj. apply in_seq in Hj. destruct (proj2 node2 j k ltac:(lia) Hk) as (_ & N1 & N2).
      pose proof (Mj_nonneg j). destruct (Req_dec (Mj j) 0) as [Z0|Z0].
      + rewrite Z0. assert (P0 : Pj j k = 0); [|lra]. unfold Pj. apply Rsum_zero. intros q Hq. apply Rsum_zero. intros it Hit.
        destruct (ind_cases j it) as [(-> & Ej)|(-> & _)]; [|lra]. pose proof (Mj_ge q it Hq Hit) as Hg. rewrite Ej, Nat2Z.id, Z0 in Hg.
        pose proof (sl_w _ _ _ _ (sl q Hq) it Hit). replace (it_w it) with 0 by lra. lra.
      + destruct (N1 ltac:(lra)) as (-> & ->). field. lra.
  Qed.
  (** Sums of the gathered PIC velocities and FLIP increments. *)
  Theorem pic_total : forall k, (k < dim)%nat ->
    Rsum (fun q => Rsum (fun it => it_w it * Vn (Z.to_nat (it_idx it)) k) (its q)) l = Rsum (fun q => vget (q_v q) k) l + INR (length l) * (dt * vget grav k).
  Proof.
    intros k Hk. rewrite (gather_total (fun j => Vn j k)).
    rewrite (Rsum_ext _ (fun j => Mj j * (Vn j k - Dn j k) + Mj j * Dn j k)) by (intros; lra).
    rewrite Rsum_plus, total_old, total_incr by auto. lra.
  Qed.
  Theorem flip_total : forall k, (k < dim)%nat ->
    Rsum (fun q => Rsum (fun it => it_w it * Dn (Z.to_nat (it_idx it)) k) (its q)) l = INR (length l) * (dt * vget grav k).
  Proof. intros k Hk. rewrite (gather_total (fun j => Dn j k)). now apply total_incr. Qed.

  (** ** Affine velocity fields *)
  Section Field.
    Variables (c : TV) (A : TM).
    Definition fld (k : nat) (X : TV) : R := vget c k + sumd (fun j => mget A k j * vget X j).
    Lemma fld_at : forall k x X, (k < dim)%nat -> fld k X = fld k x + sumd (fun j => mget A k j * (vget X j - vget x j)).
    Proof. intros. unfold fld. rewrite Rplus_assoc, <- sumd_plus. f_equal. apply sumd_ext. intros; ring. Qed.

    (** A particle moves with the field; affine part only for APIC. *)
    Record carries (q : P1 R) : Prop := {
      ca_v : forall k, (k < dim)%nat -> vget (q_v q) k = fld k (q_x q);
      ca_B : flip_ratio p < 0 -> forall i j, (i < dim)%nat -> (j < dim)%nat -> mget (q_B q) i j * apicDinverse p = mget A i j;
      ca_0 : 0 <= flip_ratio p -> forall i j, (i < dim)%nat -> (j < dim)%nat -> mget A i j = 0 }.
    Lemma carry_aff : forall q it k, carries q -> (k < dim)%nat -> vget (q_v q) k + affine p (pd q) it k = fld k (it_x it).
    Proof.
      intros q it k Ca Hk. rewrite (ca_v q Ca k Hk), (fld_at k (q_x q) (it_x it) Hk). f_equal. unfold affine, pd. cbn [d_B d_x].
      destruct (Rltb_spec (flip_ratio p) 0) as [H|H].
      - rewrite vget_mvec by auto. rewrite <- sumd_scalr. apply sumd_ext. intros j Hj. rewrite <- (ca_B q Ca H k j Hk Hj). autorewrite with geo. ring.
      - symmetry. apply sumd_zero. intros j Hj. rewrite (ca_0 q Ca) by (auto; lra). ring.
    Qed.

    (** A nodal function that agrees with the field where there is mass. *)
    Definition agrees (phi : nat -> R) (k : nat) : Prop := forall j, (j < length g2)%nat -> 0 < Mj j -> phi j = fld k (node_pos p axes j).
    Section Gather.
      Variables (phi : nat -> R) (k : nat) (q : P1 R).
      Hypothesis Hk : (k < dim)%nat.
      Hypothesis Hphi : agrees phi k.
      Hypothesis Hq : In q l.
      Lemma agree_it : forall it, In it (its q) -> 0 < it_w it -> phi (Z.to_nat (it_idx it)) = fld k (it_x it).
      Proof.
        intros it Hit W. rewrite (stencil_pos p Hdx axes (q_x q) it GO (Cov q Hq) Hit). apply Hphi.
        - pose proof (sl_idx _ _ _ _ (sl q Hq) it Hit) as Hi. rewrite <- len1, <- (proj1 node2) in Hi. lia.
        - pose proof (Mj_ge q it Hq Hit). lra.
      Qed.
      Lemma gather_w : forall f : Item R -> R, Rsum (fun it => it_w it * phi (Z.to_nat (it_idx it)) * f it) (its q) = Rsum (fun it => it_w it * fld k (it_x it) * f it) (its q).
      Proof.
        intros f. apply Rsum_ext. intros it Hit. pose proof (sl_w _ _ _ _ (sl q Hq) it Hit). destruct (Req_dec (it_w it) 0) as [->|]; [lra|].
        rewrite agree_it by (auto; lra). reflexivity.
      Qed.
      Lemma gather_v : Rsum (fun it => it_w it * phi (Z.to_nat (it_idx it))) (its q) = fld k (q_x q).
      Proof.
        pose proof (gather_w (fun _ => 1)) as H. rewrite (Rsum_ext _ (fun it => it_w it * phi (Z.to_nat (it_idx it)) * 1)) by (intros; lra). rewrite H.
        rewrite (Rsum_ext _ (fun it => fld k (q_x q) * it_w it + sumd (fun j => mget A k j * (it_w it * (vget (it_x it) j - vget (q_x q) j))))).
        - assert (S1 : Rsum it_w (its q) = 1) by exact (sl_1 _ _ _ _ (sl q Hq)). rewrite Rsum_plus, Rsum_scal, S1, <- sumd_Rsum_swap.
          rewrite sumd_zero; [lra|]. intros j Hj. rewrite Rsum_scal, (sl_x _ _ _ _ (sl q Hq)) by auto. lra.
        - intros it _. rewrite (fld_at k (q_x q) (it_x it) Hk), Rmult_1_r, Rmult_plus_distr_l, <- sumd_scal. f_equal; [ring|]. apply sumd_ext. intros; ring.
      Qed.
      Lemma gather_g : forall i, (i < dim)%nat -> Rsum (fun it => phi (Z.to_nat (it_idx it)) * vget (it_g it) i) (its q) = mget A k i.
      Proof.
        intros i Hi.
        rewrite (Rsum_ext _ (fun it => fld k (q_x q) * vget (it_g it) i + sumd (fun j => mget A k j * (vget (it_g it) i * (vget (it_x it) j - vget (q_x q) j))))).
        - rewrite Rsum_plus, Rsum_scal, (sl_g _ _ _ _ (sl q Hq)), <- sumd_Rsum_swap by auto.
          rewrite (sumd_ext _ (fun j => if Nat.eqb i j then mget A k j else 0)); [rewrite sumd_pick by auto; lra|].
          intros j Hj. rewrite Rsum_scal, (sl_gx _ _ _ _ (sl q Hq)) by auto. destruct (Nat.eqb i j); lra.
        - intros it Hit. transitivity (fld k (it_x it) * vget (it_g it) i).
          + pose proof (sl_w _ _ _ _ (sl q Hq) it Hit). destruct (Req_dec (it_w it) 0) as [Z0|].
            * rewrite (sl_0 _ _ _ _ (sl q Hq) it i Hit Hi Z0). lra.
            * rewrite agree_it by (auto; lra). reflexivity.
          + rewrite (fld_at k (q_x q) (it_x it) Hk), Rmult_plus_distr_r, <- sumd_scalr. f_equal. apply sumd_ext. intros; ring.
      Qed.
      Lemma gather_B : forall i, (i < dim)%nat -> (spline p <> Deg1 \/ forall j, (j < dim)%nat -> mget A k j = 0) ->
        Rsum (fun it => it_w it * phi (Z.to_nat (it_idx it)) * (vget (it_x it) i - vget (q_x q) i)) (its q) = mget A k i * / apicDinverse p.
      Proof.
        intros i Hi Hs. rewrite (gather_w (fun it => vget (it_x it) i - vget (q_x q) i)).
        rewrite (Rsum_ext _ (fun it => fld k (q_x q) * (it_w it * (vget (it_x it) i - vget (q_x q) i))
          + sumd (fun j => mget A k j * (it_w it * (vget (it_x it) i - vget (q_x q) i) * (vget (it_x it) j - vget (q_x q) j))))).
        - rewrite Rsum_plus, Rsum_scal, (sl_x _ _ _ _ (sl q Hq)), <- sumd_Rsum_swap by auto.
          destruct Hs as [Hs|Hs].
          + rewrite (sumd_ext _ (fun j => if Nat.eqb i j then mget A k j * / apicDinverse p else 0)).
            * rewrite (sumd_pick (fun j => mget A k j * / apicDinverse p)) by auto. lra.
            * intros j Hj. rewrite Rsum_scal, (sl_xx _ _ _ _ (sl q Hq)) by auto. destruct (Nat.eqb i j); lra.
          + rewrite (Hs i Hi), sumd_zero; [lra|]. intros j Hj. rewrite (Hs j Hj), Rsum_scal. lra.
        - intros it _. rewrite (fld_at k (q_x q) (it_x it) Hk), Rmult_plus_distr_l, Rmult_plus_distr_r, <- sumd_scal, <- sumd_scalr. f_equal; [ring|]. apply sumd_ext. intros; ring.
      Qed.
    End Gather.

    (** Re-projection of particles carrying the field reproduces it. *)
    Lemma project_field : forall k j, (k < dim)%nat -> (forall q, In q l -> carries q) -> 0 < Mj j -> Pj j k / Mj j = fld k (node_pos p axes j).
    Proof.
      intros k j Hk Ca H0. assert (E : Pj j k = fld k (node_pos p axes j) * Mj j); [|rewrite E; field; lra].
      unfold Pj, Mj. rewrite <- Rsum_scal. apply Rsum_ext. intros q Hq. rewrite <- Rsum_scal. apply Rsum_ext. intros it Hit.
      rewrite (carry_aff q it k (Ca q Hq) Hk). destruct (ind_cases j it) as [(-> & Ej)|(-> & _)]; [|lra].
      rewrite (stencil_pos p Hdx axes (q_x q) it GO (Cov q Hq) Hit), Ej, Nat2Z.id. ring.
    Qed.
  End Field.
End Mech.
