(** * BarrierProofs: resting flat obstacles only slow nodes down, and what this means for the particles. *)
From Coq Require Import Reals ZArith Lra Lia List Bool Permutation.
From Verif Require Import Num NumR Tools Lin Types Remesh Objects Transfer Rma Plastic Pbc Step Spec SpecStep SpecMech SpecObj SpecMaterial SpecMpm SpecBarrier
  LinProofs ResProofs KernelProofs GridProofs StencilProofs IndexProofs GradProofs AccumProofs P2GProofs ConsProofs MuslProofs RemeshProofs
  ObjectProofs PlateProofs PloopProofs PbcProofs StepProofs StepMech StepField PlasticModels MpmProofs BalanceProofs TimeProofs.
Import ListNotations.
Local Open Scope R_scope.

(** [a] is [b] or smaller, of the same sign. *)
Definition tw (a b : R) : Prop := 0 <= a <= b \/ b <= a <= 0.
Lemma tw_refl : forall a, tw a a.
Proof. intros a. unfold tw. lra. Qed.
Lemma tw_0 : forall a, tw 0 a.
Proof. intros a. unfold tw. lra. Qed.
Lemma tw_trans : forall a b c, tw a b -> tw b c -> tw a c.
Proof. unfold tw. intros a b c H K. lra. Qed.
Lemma tw_scale : forall c a, 0 <= c <= 1 -> tw (c * a) a.
Proof. intros c a H. unfold tw. destruct (Rle_dec 0 a); [left|right]; nra. Qed.
Lemma tw_bound : forall s a b m, s = 1 \/ s = -1 -> tw a b -> 0 <= m -> - m <= s * b -> - m <= s * a.
Proof. intros s a b m [-> | ->] [H|H] M B; lra. Qed.

Lemma fric2_tw : forall mu vt vn, 0 <= mu -> tw (plate_fric2 mu vt vn) vt.
Proof.
  intros mu vt vn Hm. unfold plate_fric2. rewrite ?nofZ_R. numR. cbn [nabs NumR]. pose proof (Rabs_pos vn) as Hn. assert (0 <= mu * Rabs vn) by nra.
  destruct (Reqb_spec mu 0); [apply tw_refl|]. destruct (Rltb_spec (Rabs vt) (mu * Rabs vn)) as [_|L]; [apply tw_0|].
  destruct (Rltb_spec 0 vt) as [P|P]; unfold tw; [rewrite Rabs_pos_eq in L by lra|rewrite Rabs_left1 in L by lra]; lra.
Qed.
Lemma sgn_R : forall v : R, IZR (sgn v) = if Rltb 0 v then 1 else if Rltb v 0 then -1 else 0.
Proof.
  intros v. unfold sgn. rewrite ?nofZ_R. numR. destruct (Rltb_spec 0 v); destruct (Rltb_spec v 0); try lra; reflexivity.
Qed.
(** [sgn t * a / sqrt (1 + b^2/t^2)] has the size |t| a / sqrt (t^2 + b^2). *)
Lemma fric3_term : forall t b a c, 0 <= a -> 0 <= c -> c * c <= t * t + b * b -> a <= c -> tw (IZR (sgn t) * a / sqrt (1 + b * b / (t * t))) t.
Proof.
  intros t b a c Ha Hc Hcc Hac. rewrite sgn_R. destruct (Req_dec t 0) as [->|T].
  { destruct (Rltb_spec 0 0); [lra|]. destruct (Rltb_spec 0 0); [lra|]. unfold Rdiv. rewrite !Rmult_0_l. apply tw_0. }
  assert (T2 : 0 < t * t) by nra. assert (Q : 1 + b * b / (t * t) = (t * t + b * b) / (t * t)) by (field; lra).
  assert (B0 : 0 <= b * b / (t * t)) by (apply Rmult_le_pos; [nra|left; apply Rinv_0_lt_compat; lra]).
  set (S := sqrt (1 + b * b / (t * t))). assert (S0 : 0 < S) by (apply sqrt_lt_R0; lra).
  assert (SS : S * S = (t * t + b * b) / (t * t)) by (unfold S; rewrite sqrt_sqrt by lra; exact Q).
  assert (K : a <= Rabs t * S).
  { apply Rsqr_incr_0_var; [|apply Rmult_le_pos; [apply Rabs_pos|lra]]. unfold Rsqr.
    assert (E : Rabs t * S * (Rabs t * S) = t * t + b * b).
    { transitivity (Rabs t * Rabs t * (S * S)); [ring|]. rewrite SS. assert (A : Rabs t * Rabs t = t * t) by (rewrite <- Rabs_mult; apply Rabs_pos_eq; lra). rewrite A. field. lra. }
    rewrite E. nra. }
  assert (D : 0 <= a / S <= Rabs t).
  { split; [apply Rmult_le_pos; [lra|left; apply Rinv_0_lt_compat; lra]|]. apply Rmult_le_reg_r with S; [lra|]. unfold Rdiv. rewrite Rmult_assoc, Rinv_l by lra. lra. }
  destruct (Rltb_spec 0 t) as [P|P]; [|destruct (Rltb_spec t 0) as [P'|P']; [|lra]].
  - rewrite Rabs_pos_eq in D by lra. replace (1 * a / S) with (a / S) by (field; lra). unfold tw. lra.
  - rewrite Rabs_left in D by lra. replace (-1 * a / S) with (- (a / S)) by (field; lra). unfold tw. lra.
Qed.
Lemma fric3_tw : forall mu t1 t2 vn, 0 <= mu -> tw (fst (plate_fric3 mu t1 t2 vn)) t1 /\ tw (snd (plate_fric3 mu t1 t2 vn)) t2.
Proof.
  intros mu t1 t2 vn Hm. unfold plate_fric3. cbv zeta. rewrite ?nofZ_R. numR. cbn [nabs nsqrt NumR]. pose proof (Rabs_pos vn) as Hn. assert (F0 : 0 <= mu * Rabs vn) by nra. set (f := mu * Rabs vn) in *.
  destruct (Reqb_spec mu 0); [split; apply tw_refl|]. set (V := sqrt (t1 * t1 + t2 * t2)). assert (V0 : 0 <= V) by apply sqrt_pos.
  assert (VV : V * V = t1 * t1 + t2 * t2) by (apply sqrt_sqrt; nra).
  destruct (Rleb_spec V f) as [_|L]; [split; apply tw_0|]. cbn [fst snd].
  set (u := IZR (sgn t1) * (V - f) / sqrt (1 + t2 * t2 / (t1 * t1))).
  split; [apply fric3_term with V; lra|].
  (* the second component uses the reduced first one *)
  set (s := (V - f) / V). assert (Vp : 0 < V) by lra.
  assert (s01 : 0 <= s <= 1) by (unfold s; split; [apply Rmult_le_pos; [lra|left; apply Rinv_0_lt_compat; lra]|apply Rmult_le_reg_r with V; [lra|]; unfold Rdiv; rewrite Rmult_assoc, Rinv_l by lra; lra]).
  assert (U : u * u = s * s * (t1 * t1)).
  { unfold u. rewrite sgn_R. destruct (Req_dec t1 0) as [->|T]. { destruct (Rltb_spec 0 0); [lra|]. unfold Rdiv. ring. }
    assert (T2 : 0 < t1 * t1) by nra. set (Q := sqrt (1 + t2 * t2 / (t1 * t1))).
    assert (B0 : 0 <= t2 * t2 / (t1 * t1)) by (apply Rmult_le_pos; [nra|left; apply Rinv_0_lt_compat; lra]).
    assert (Q0 : 0 < Q) by (apply sqrt_lt_R0; lra).
    assert (QQ : Q * Q = V * V / (t1 * t1)) by (unfold Q; rewrite sqrt_sqrt by lra; rewrite VV; field; lra).
    assert (E : (V - f) / Q * ((V - f) / Q) = s * s * (t1 * t1)).
    { transitivity ((V - f) * (V - f) / (Q * Q)); [field; lra|]. rewrite QQ. unfold s. field. split; lra. }
    destruct (Rltb_spec 0 t1) as [P|P]; [|destruct (Rltb_spec t1 0) as [P'|P']; [|lra]]; rewrite <- E; field; lra. }
  apply fric3_term with (V - f); try lra.
  assert (Vf : V - f = s * V) by (unfold s; field; lra). rewrite Vf, U.
  replace (s * V * (s * V)) with (s * s * (V * V)) by ring. rewrite VV. assert (s * s <= 1) by nra. assert (0 <= t2 * t2) by nra. nra.
Qed.

Section Corr.
  Context {G : Geo R} {GL : GeoLaws G}.
  Lemma slide_tw : forall mu t w k, (k < dim)%nat -> pos_dir t = k \/ 0 <= mu -> tw (vget (plate_slide mu t w) k) (vget w k).
  Proof.
    intros mu t w k Hk H. unfold plate_slide. destruct gl_dim as [D|D].
    - rewrite D. destruct t; try apply tw_refl; cbn [plate_axis Nat.eqb]; destruct k as [|[|k]]; try lia; autorewrite with geo; cbn [Nat.eqb]; rewrite ?nofZ_R; try apply tw_0; cbn [pos_dir] in H;
      (destruct H as [H|H]; [discriminate|]; now apply fric2_tw).
    - rewrite D. destruct t; cbn [plate_tan plate_axis];
      match goal with |- context [plate_fric3 ?a ?b ?c ?d] => pose proof (fric3_tw a b c d) as F; destruct (plate_fric3 a b c d) as (x & y) end; cbn [fst snd] in F;
      destruct k as [|[|[|k]]]; try lia; autorewrite with geo; cbn [Nat.eqb]; rewrite ?nofZ_R; try apply tw_0; cbn [pos_dir] in H; (destruct H as [H|H]; [discriminate|]; now apply F).
  Qed.
  Lemma vzero_get : forall k, (k < dim)%nat -> vget (@vzero R _ G) k = 0.
  Proof. intros k Hk. autorewrite with geo. rewrite ?nofZ_R. auto. Qed.
  Lemma plate_tw : forall (mibf : bool) nfr q v k, (k < dim)%nat -> pl_v q = vzero -> pos_dir (pl_type q) = k \/ 0 <= (if mibf then nfr else pl_fric q) ->
    tw (vget (plate_collide mibf nfr q v) k) (vget v k).
  Proof.
    intros mibf nfr q v k Hk E H. unfold plate_collide. cbv zeta. rewrite E. set (f := if mibf then nfr else pl_fric q) in *.
    assert (W : vsub v vzero = v) by (apply vsub_0_r). rewrite W. rewrite vget_add, vzero_get by auto. numR. rewrite Rplus_0_r.
    destruct (pl_bc q); [rewrite vzero_get by auto; apply tw_0|now apply slide_tw|]. destruct (plate_towards _ _); [now apply slide_tw|apply tw_refl].
  Qed.
  Lemma slide_normal : forall mu t w, (pos_dir t < dim)%nat -> vget (plate_slide mu t w) (pos_dir t) = 0.
  Proof.
    intros mu t w Hk. unfold plate_slide. destruct gl_dim as [D|D]; rewrite D.
    - destruct t; cbn [pos_dir] in *; try lia; cbn [plate_axis Nat.eqb]; autorewrite with geo; cbn [Nat.eqb]; rewrite ?nofZ_R; auto.
    - destruct t; cbn [plate_tan plate_axis pos_dir]; destruct (plate_fric3 _ _ _ _) as (x & y); autorewrite with geo; cbn [Nat.eqb]; rewrite ?nofZ_R; auto.
  Qed.
  Lemma plate_stop : forall (mibf : bool) nfr q v, (pos_dir (pl_type q) < dim)%nat -> pl_v q = vzero ->
    0 <= bar_side (APlate q) * vget (plate_collide mibf nfr q v) (pos_dir (pl_type q)).
  Proof.
    intros mibf nfr q v Hk E. unfold plate_collide. cbv zeta. rewrite E. set (f := if mibf then nfr else pl_fric q) in *.
    assert (W : vsub v vzero = v) by (apply vsub_0_r). rewrite W. rewrite vget_add, vzero_get by auto. numR. rewrite Rplus_0_r.
    destruct (pl_bc q); [rewrite vzero_get by auto; lra|rewrite slide_normal by auto; lra|]. destruct (plate_towards _ _) eqn:T; [rewrite slide_normal by auto; lra|].
    unfold plate_towards, bar_side in *. revert T. rewrite ?nofZ_R. numR. destruct (pl_type q); cbn [pos_dir];
    match goal with |- context [Rltb ?a ?b] => destruct (Rltb_spec a b) end; intros T; try discriminate; lra.
  Qed.
End Corr.

Section Bound.
  Context {G : Geo R} {GL : GeoLaws G}.
  Variable p : Par R.
  Variable k : nat.
  Hypothesis Hk : (k < dim)%nat.
  Lemma plates_tw : forall nfr X l v, (forall q, In q l -> pl_v q = vzero /\ (pos_dir (pl_type q) = k \/ use_mibf p = false /\ 0 <= pl_fric q)) ->
    tw (vget (plates_loop p nfr l X v) k) (vget v k).
  Proof.
    intros nfr X l. unfold plates_loop. induction l as [|q l IH]; intros v H; cbn [fold_left]; [apply tw_refl|].
    eapply tw_trans; [apply IH; intros; apply H; now right|]. destruct (plate_inside q X); [|apply tw_refl].
    destruct (H q ltac:(now left)) as (E & C). apply plate_tw; auto. destruct C as [C|(C & D)]; [now left|right]. now rewrite C.
  Qed.
  Lemma ground_tw : forall y bc fric X v v', collide bc fric (normal (Ground y) X) v = Ok v' ->
    tw (vget v' k) (vget v k) /\ 0 <= vget v' 1.
  Proof.
    intros y bc fric X v v' E. assert (Hb : bc = NoSlip \/ bc <> NoSlip) by (destruct bc; auto; right; discriminate). destruct Hb as [->|Hb].
    { cbn in E. apply Ok_inj in E. subst v'. rewrite !vzero_get by (destruct (@gl_dim G GL); lia). split; [apply tw_0|lra]. }
    cbn [normal] in E. destruct gl_dim as [D|D]; rewrite D in E; [|destruct bc; [congruence|discriminate|discriminate]].
    assert (P0 : (0 < dim)%nat) by lia. assert (P1 : (1 < dim)%nat) by lia.
    set (n := vec01 (nofZ 0) (nofZ 1)) in *. assert (N0 : vget n 0 = 0) by (unfold n, vec01; autorewrite with geo; cbn [Nat.eqb]; rewrite ?nofZ_R; auto).
    assert (N1 : vget n 1 = 1) by (unfold n, vec01; autorewrite with geo; cbn [Nat.eqb]; rewrite ?nofZ_R; auto).
    assert (Dt : forall w, vdot w n = vget w 1) by (intros w; unfold vdot, sumd; rewrite D; cbn [pred sumto]; rewrite N0, N1; numR; ring).
    assert (Nn : vdot n n = 1) by (rewrite Dt; exact N1).
    rewrite collide_slip in E by auto. rewrite Dt in E.
    assert (T0 : vget (tang n v) 0 = vget v 0) by (unfold tang; rewrite vget_sub, vget_lscale, N0 by auto; numR; ring).
    assert (T1 : vget (tang n v) 1 = 0) by (unfold tang; rewrite vget_sub, vget_lscale, N1, Dt by auto; numR; ring).
    destruct (Rltb_spec (vget v 1) 0) as [L|L].
    - destruct (slid_factor fric n v v' Nn ltac:(rewrite Dt; lra) E) as (c & Hc & ->). rewrite !vget_lscale by auto. numR.
      split; [|rewrite T1; lra]. destruct k as [|[|]]; [rewrite T0; now apply tw_scale| |lia]. rewrite T1. replace (c * 0) with 0 by ring. apply tw_0.
    - apply Ok_inj in E. subst v'. destruct bc; [congruence| |].
      + split; [|lra]. destruct k as [|[|]]; [rewrite T0; apply tw_refl|rewrite T1; apply tw_0|lia].
      + split; [apply tw_refl|lra].
  Qed.
  Lemma objs_tw : forall nfr X l v v', (forall o, In o l -> exists y, ob_shape o = Ground y) -> foldM (ostep p nfr X) l v = Ok v' -> tw (vget v' k) (vget v k).
  Proof.
    intros nfr X l. induction l as [|o l IH]; intros v v' H E; [apply Ok_inj in E; subst; apply tw_refl|].
    cbn [foldM] in E. apply bind_Ok in E. destruct E as (v1 & E1 & E2). apply IH in E2; [|intros; apply H; now right]. eapply tw_trans; [exact E2|].
    unfold ostep in E1. apply bind_Ok in E1. destruct E1 as (c & _ & E1). destruct c; [|apply Ok_inj in E1; subst; apply tw_refl].
    destruct (H o ltac:(now left)) as (y & Ey). rewrite Ey in E1. now apply ground_tw in E1.
  Qed.
End Bound.

Section Node.
  Context {G : Geo R} {GL : GeoLaws G}.
  Variable p : Par R.
  Variable b : barrier.
  Hypothesis Hk : (bar_axis b < dim)%nat.
  Lemma side_pm : bar_side b = 1 \/ bar_side b = -1.
  Proof. destruct b as [pl|y]; cbn; auto. destruct (pl_type pl); auto. Qed.
  Definition not_beside (X : TV) : Prop :=
    match b with AGround _ => True | APlate pl => forall j, ext_dir (pl_type pl) = Some j -> pl_lower pl < vget X j < pl_upper pl end.
  (** The node does not go behind the surface, and if it is there already not deeper. *)
  Lemma collision_bound : forall plates dt mu X free v, still_scene p (bar_axis b) plates -> present p plates b -> 0 <= dt ->
    boundaryCollision p plates dt mu X free = Ok v -> not_beside (predicted dt X free) ->
    - Rmax 0 (- depth b X) <= bar_side b * (dt * vget v (bar_axis b)).
  Proof.
    intros plates dt mu X free v (So & Sp) Pr Hdt E NB. unfold boundaryCollision in E. cbv zeta in E. unfold not_beside in NB. apply bind_Ok in E. destruct E as (vo & Eo & E). apply Ok_inj in E.
    set (Y := vadd X (lscale dt free)) in *. fold (predicted dt X free) in Y.
    assert (Pl : forall q, In q plates -> pl_v q = vzero /\ (pos_dir (pl_type q) = bar_axis b \/ use_mibf p = false /\ 0 <= pl_fric q)) by (intros q Hq; destruct (Sp q Hq) as (A & _ & B); auto).
    pose proof side_pm as Pm. set (m := Rmax 0 (- depth b X)). assert (M0 : 0 <= m) by apply Rmax_l.
    assert (Tp : tw (vget v (bar_axis b)) (vget vo (bar_axis b))) by (rewrite <- E; apply plates_tw; auto).
    change (objects_loop p mu Y free) with (foldM (ostep p mu Y) (objects p) free) in Eo.
    destruct (Rle_dec 0 (depth b Y)) as [D|D].
    - assert (V0 : 0 <= bar_side b * vget v (bar_axis b)); [|replace (bar_side b * (dt * vget v (bar_axis b))) with (dt * (bar_side b * vget v (bar_axis b))) by ring; assert (0 <= dt * (bar_side b * vget v (bar_axis b))) by (now apply Rmult_le_pos); lra].
      destruct b as [pl|y] eqn:Eb; cbn [bar_axis bar_side bar_pos present] in *.
      + assert (I : in_plate pl Y).
        { clear -GL D NB Hk. unfold depth in *. cbn [bar_axis bar_side bar_pos] in *. unfold in_plate. change (predicted dt X free) with Y in NB. cbv zeta.
          destruct (pl_type pl); cbn [pos_dir ext_dir] in *; try (specialize (NB _ eq_refl)); try (split; [lra|exact NB]); (split; [destruct (@gl_dim G GL); lia|lra]). }
        apply plate_inside_spec in I. apply in_split in Pr. destruct Pr as (l1 & l2 & ->). rewrite plates_app in E. unfold plates_loop at 1 in E. cbn [fold_left] in E. rewrite I in E.
        change (plates_loop p mu l2 Y (plate_collide (use_mibf p) mu pl (plates_loop p mu l1 Y vo)) = v) in E. set (v1 := plate_collide _ _ _ _) in E.
        assert (T : tw (vget v (pos_dir (pl_type pl))) (vget v1 (pos_dir (pl_type pl)))) by (rewrite <- E; apply plates_tw; auto; intros; apply Pl; apply in_or_app; right; now right).
        assert (S : 0 <= bar_side (APlate pl) * vget v1 (pos_dir (pl_type pl))) by (apply plate_stop; auto; apply Pl; apply in_or_app; right; now left).
        cbn [bar_side] in S. pose proof (tw_bound _ _ _ 0 Pm T ltac:(lra) ltac:(lra)). lra.
      + destruct Pr as (o & Ho & Es). apply in_split in Ho. destruct Ho as (l1 & l2 & El). rewrite El in Eo, So. rewrite foldM_app in Eo. apply bind_Ok in Eo. destruct Eo as (v1 & _ & Eo).
        cbn [foldM] in Eo. apply bind_Ok in Eo. destruct Eo as (v2 & E2 & Eo). unfold ostep in E2. rewrite Es in E2. cbn [inside] in E2.
        unfold depth in D. cbn [bar_axis bar_side bar_pos] in D. revert E2. numR. destruct (Rltb_spec y (vget Y 1)) as [L|L]; [lra|]. cbn [negb bind]. intros E2.
        destruct (ground_tw 1%nat Hk _ _ _ _ _ _ E2) as (_ & S). assert (T : tw (vget vo 1) (vget v2 1)) by (eapply (objs_tw p 1%nat Hk); [|exact Eo]; intros; apply So; apply in_or_app; right; now right).
        pose proof (tw_trans _ _ _ Tp T) as T'. pose proof (tw_bound 1 _ _ 0 (or_introl eq_refl) T' ltac:(lra) ltac:(lra)). lra.
    - assert (To : tw (vget vo (bar_axis b)) (vget free (bar_axis b))) by (eapply objs_tw; eauto). pose proof (tw_trans _ _ _ Tp To) as T.
      assert (T2 : tw (dt * vget v (bar_axis b)) (dt * vget free (bar_axis b))) by (destruct T as [T|T]; [left|right]; nra).
      apply (tw_bound _ _ _ m Pm T2 M0). unfold depth in D. unfold Y, predicted in D. rewrite vget_add, vget_lscale in D by auto. revert D. numR. intros D.
      assert (K : - depth b X <= m) by apply Rmax_r. unfold depth in K. destruct Pm as [Q|Q]; rewrite Q in *; lra.
  Qed.
  (** Sum over the stencil: what is left of the depth. *)
  Lemma stencil_bound : 0 < dx p -> forall axes x items dt f, SL p axes x items -> (forall it, In it items -> it_w it = weight p (it_x it) x) ->
    (forall it, In it items -> - Rmax 0 (- depth b (it_x it)) <= bar_side b * (dt * f it)) ->
    let r := kernel_radius p in let d := depth b x in let d1 := bar_side b * (bar_pos b - (vget x (bar_axis b) + dt * mean f items)) in
    (d <= - r -> d1 <= 0) /\ (- r <= d <= r -> d1 <= (d + r) / 2) /\ (r <= d -> d1 <= d).
  Proof.
    intros Hdx axes x items dt f S Wt Hf r d d1. pose proof side_pm as Pm. set (k := bar_axis b) in *. set (s := bar_side b) in *.
    pose proof (sl_1 _ _ _ _ S) as S1. change (Rsum (fun it : Item R => it_w it) items) with (Rsum it_w items) in S1.
    assert (Sx : Rsum (fun it => it_w it * depth b (it_x it)) items = d).
    { transitivity (Rsum (fun it => it_w it * d - s * (it_w it * (vget (it_x it) k - vget x k))) items); [apply Rsum_ext; intros it _; unfold d, depth; fold s k; ring|].
      rewrite Rsum_minus, Rsum_scal, (sl_x _ _ _ _ S k Hk), (Rsum_scalr d it_w), S1. ring. }
    assert (B1 : d1 <= Rsum (fun it => it_w it * Rmax 0 (depth b (it_x it))) items).
    { assert (Ed : d1 = Rsum (fun it => it_w it * depth b (it_x it) - it_w it * (s * (dt * f it))) items).
      { rewrite Rsum_minus, Sx. unfold d1, d, depth, mean. fold s k. rewrite (Rsum_ext (fun it => it_w it * (s * (dt * f it))) (fun it => (s * dt) * (it_w it * f it))) by (intros; ring). rewrite Rsum_scal. ring. }
      rewrite Ed. apply Rsum_le. intros it Hit. specialize (Hf it Hit). pose proof (sl_w _ _ _ _ S it Hit) as W0. fold s in Hf.
      replace (it_w it * depth b (it_x it) - it_w it * (s * (dt * f it))) with (it_w it * (depth b (it_x it) - s * (dt * f it))) by ring. apply Rmult_le_compat_l; auto.
      unfold Rmax in *. destruct (Rle_dec 0 (depth b (it_x it))), (Rle_dec 0 (- depth b (it_x it))); lra. }
    assert (Far : forall it, In it items -> it_w it <> 0 -> d - r <= depth b (it_x it) <= d + r).
    { intros it Hit W0. assert (A : Rabs ((vget x k - vget (it_x it) k) / dx p) < match spline p with Deg1 => 1 | Deg2 => 3/2 | Deg3 => 2 end).
      { apply Rnot_le_lt. intros C. apply W0. rewrite (Wt it Hit). unfold weight. apply N_support in C. destruct C as (C & _).
        assert (Ik : In k (seq 0 dim)) by (apply in_seq; lia). revert Ik C. generalize (seq 0 dim) as ks. induction ks as [|k' ks IH]; intros Ik C; [destruct Ik|].
        cbn [map fold_right]. destruct Ik as [->|Ik]; [rewrite C|rewrite IH by auto]; numR; ring. }
      assert (R0 : match spline p with Deg1 => 1 | Deg2 => 3/2 | Deg3 => 2 end * dx p = r) by (unfold r, kernel_radius; destruct (spline p); cbn [degree INR]; lra).
      unfold Rdiv in A, R0. rewrite Rabs_mult, (Rabs_pos_eq (/ dx p)) in A by (left; now apply Rinv_0_lt_compat).
      apply (Rmult_lt_compat_r (dx p)) in A; auto. rewrite Rmult_assoc, Rinv_l, R0, Rmult_1_r in A by lra. apply Rabs_def2 in A.
      unfold d, depth. fold s k. destruct Pm as [Q|Q]; fold s in Q; rewrite Q; lra. }
    assert (Le : forall g, (forall u, d - r <= u <= d + r -> Rmax 0 u <= g u) -> d1 <= Rsum (fun it => it_w it * g (depth b (it_x it))) items).
    { intros g Hg. eapply Rle_trans; [exact B1|]. apply Rsum_le. intros it Hit. destruct (Req_dec (it_w it) 0) as [->|W0]; [lra|]. apply Rmult_le_compat_l; [exact (sl_w _ _ _ _ S it Hit)|]. apply Hg. now apply Far. }
    assert (R0 : 0 < r) by (unfold r, kernel_radius; apply Rmult_lt_0_compat; auto; destruct (spline p); cbn [degree INR]; lra).
    repeat split; intros H.
    - eapply Rle_trans; [apply (Le (fun _ => 0))|right]. { intros u Hu. rewrite Rmax_left; lra. } rewrite (Rsum_ext _ (fun _ => 0)) by (intros; ring). apply Rsum_0.
    - eapply Rle_trans; [apply (Le (fun u => (d + r) / (2 * r) * u + (d + r) / (2 * r) * (r - d)))|right].
      { intros u Hu. assert (E : (d + r) / (2 * r) * u + (d + r) / (2 * r) * (r - d) = (d + r) * (u - d + r) * / (2 * r)) by (field; lra). rewrite E.
        apply Rmult_le_reg_r with (2 * r); [lra|]. rewrite Rmult_assoc, Rinv_l by lra. unfold Rmax. destruct (Rle_dec 0 u) as [U|U]; [|nra].
        assert (0 <= (r - d) * (d + r - u)) by (apply Rmult_le_pos; lra). nra. }
      rewrite (Rsum_ext _ (fun it => (d + r) / (2 * r) * (it_w it * depth b (it_x it)) + it_w it * ((d + r) / (2 * r) * (r - d)))) by (intros; ring).
      rewrite Rsum_plus, Rsum_scal, (Rsum_scalr _ it_w), Sx, S1. field. lra.
    - eapply Rle_trans; [apply (Le (fun u => u))|right; exact Sx]. intros u Hu. rewrite Rmax_right; lra.
  Qed.
End Node.

Section StepBar.
  Context {G : Geo R} {GL : GeoLaws G}.
  Variable svd : TM -> TM * TV * TM.
  Variable uabs : R -> R.
  Lemma p2g_massless : forall p axes P sched nodes g j nd, 0 < particle_mass p -> p2g p axes P sched nodes = Ok g -> nth_error g j = Some nd -> nd_m nd <= 0 -> nd_v nd = vzero.
  Proof.
    intros p axes P sched nodes g j nd Hm E Hj M. unfold p2g in E. apply bind_Ok in E. destruct E as (g0 & _ & E). apply Ok_inj in E. subst g.
    rewrite nth_error_map in Hj. destruct (nth_error g0 j) as [n0|]; [|discriminate]. cbn in Hj. injection Hj as <-. unfold p2g_finish_node in *. cbv zeta in *. cbn [nd_m nd_v] in *.
    revert M. rewrite ?nofZ_R. numR. intros M. destruct (Rltb_spec 0 (nd_m n0)) as [L|L]; [nra|reflexivity].
  Qed.
  Theorem barrier_step : forall af p sc s0 s1 n b, 0 < dx p -> 0 < particle_mass p -> change_pos p = false -> valid_sched sc -> well_formed s0 n ->
    advanceStep svd uabs af p sc s0 = Ok s1 -> GridOk p (s_axes s1) -> 0 <= s_dt s1 ->
    (bar_axis b < dim)%nat -> (use_pbc p = true -> bar_axis b <> 0%nat) -> still_scene p (bar_axis b) (s_plates s0) -> present p (s_plates s0) b -> wide p s0 s1 b ->
    forall i x x1, nth_error (p_x (s_p s0)) i = Some x -> nth_error (p_x (s_p s1)) i = Some x1 ->
      let r := kernel_radius p in
      (depth b x <= - r -> depth b x1 <= 0) /\ (- r <= depth b x <= r -> depth b x1 <= (depth b x + r) / 2) /\ (r <= depth b x -> depth b x1 <= depth b x).
  Proof.
    intros af p sc s0 s1 n b Hdx Hm Hc V W H GO Hdt Hk Hpbc Sc Pr Wd i x x1 Hx Hx1.
    destruct (wf_pack s0 n W) as (l & L & E & N & F). destruct (step_run svd uabs af p sc s0 s1 l V E N F H) as [Rn].
    destruct (wf_kept svd uabs af p sc s0 s1 l Rn n W L) as (C1 & _). pose proof W as (C0 & _).
    pose proof (r_cov svd uabs af p sc s0 s1 l Rn Hdx GO) as Cov.
    destruct (blended svd uabs af p sc s0 s1 l V Rn Hdx GO E) as (P & g1 & g2 & B1 & B2 & B3 & B4).
    assert (Hi : (i < n)%nat) by (rewrite <- (co_x _ _ C0); apply nth_error_Some; congruence).
    destruct (nth_error (p_v (s_p s0)) i) as [v|] eqn:Ev; [|apply nth_error_None in Ev; rewrite (co_v _ _ C0) in Ev; lia].
    destruct (nth_error (p_v (s_p s1)) i) as [v1|] eqn:Ev1; [|apply nth_error_None in Ev1; rewrite (co_v _ _ C1) in Ev1; lia].
    destruct (B4 i x v x1 v1 Hx Ev Hx1 Ev1) as (items & Es & _ & X1 & X2).
    assert (Cx : Covered p (s_axes s1) x).
    { rewrite E in Hx. unfold pack in Hx. cbn [p_x] in Hx. rewrite nth_error_map in Hx. destruct (nth_error l i) as [q|] eqn:Eq; [|discriminate]. cbn in Hx. injection Hx as <-. apply Cov. eapply nth_error_In; eauto. }
    destruct (stencil_cov p Hdx (s_axes s1) x GO Cx) as (_ & Es' & S). rewrite Es in Es'. apply Ok_inj in Es'. subst items.
    assert (Hx' : vget x1 (bar_axis b) = vget x (bar_axis b) + s_dt s1 * mean (fun it => node_v g2 it (bar_axis b)) (items_of p (s_axes s1) x)).
    { destruct (use_pbc p) eqn:Up; [|now apply X1]. rewrite (X2 eq_refl Hc _ Hk). specialize (Hpbc eq_refl). destruct (bar_axis b); [congruence|reflexivity]. }
    assert (Ed : depth b x1 = bar_side b * (bar_pos b - (vget x (bar_axis b) + s_dt s1 * mean (fun it => node_v g2 it (bar_axis b)) (items_of p (s_axes s1) x)))) by (unfold depth; now rewrite Hx').
    rewrite Ed. apply (stencil_bound p b Hk Hdx (s_axes s1) x _ (s_dt s1) (fun it => node_v g2 it (bar_axis b)) S); [intros it Hit; now apply (item_weight p Hdx (s_axes s1))|].
    intros it Hit. pose proof (sl_idx _ _ _ _ S it Hit) as Ji. rewrite (stencil_pos p Hdx (s_axes s1) x it GO Cx Hit). set (j := Z.to_nat (it_idx it)).
    assert (L1 : Z.of_nat (length g1) = prodlen (s_axes s1)) by (rewrite (StepField.p2g_len _ _ _ _ _ _ B2); now apply (resize_length p)).
    destruct (euler_spec p _ _ _ _ _ _ _ GO (vs_euler sc V _) L1 B3) as (L2 & He).
    destruct (nth_error g1 j) as [nd|] eqn:En; [|apply nth_error_None in En; unfold j in En; lia]. destruct (He j nd En) as (nd' & Eu & En').
    assert (Nv : node_v g2 it (bar_axis b) = vget (nd_v nd') (bar_axis b)).
    { unfold node_v. rewrite (rd_nd_at g2 it) by lia. unfold nd_at. fold j. now rewrite (nth_error_nth _ _ zero_node En'). }
    rewrite Nv. pose proof (Rmax_l 0 (- depth b (node_pos p (s_axes s1) j))) as M0.
    assert (K : nd_v nd' = vzero \/ exists free mu, not_beside b (predicted (s_dt s1) (node_pos p (s_axes s1) j) free) /\
      boundaryCollision p (s_plates s0) (s_dt s1) mu (node_pos p (s_axes s1) j) free = Ok (nd_v nd')).
    { assert (Sm : not_beside b = (fun _ => True) \/ (forall f, not_beside b f) \/ exists pl j', b = APlate pl /\ ext_dir (pl_type pl) = Some j').
      { destruct b as [pl|y]; [|now left]. right. unfold not_beside. destruct (ext_dir (pl_type pl)) as [j'|] eqn:Ej; [right; eauto|left; discriminate]. }
      destruct Sm as [Sm|[Sm|(pl & j' & Eb & Ej)]].
      1,2: unfold euler_node in Eu; cbv zeta in Eu; rewrite ?nofZ_R in Eu; revert Eu; numR; intros Eu; destruct (Rltb_spec 0 (nd_m nd)) as [Mp|Mp];
        [apply bind_Ok in Eu; destruct Eu as (new & Eb & Eu); apply Ok_inj in Eu; right; rewrite <- Eu; cbn [nd_v]; eexists _, _; split; [|exact Eb]; try rewrite Sm; auto
        |left; apply Ok_inj in Eu; subst nd'; eapply p2g_massless; eauto; lra].
      subst b. cbn [wide] in Wd. rewrite Ej in Wd. destruct Wd as (Np & RC & Wd). cbv zeta in Wd.
      assert (Nt : forall q, In q l -> no_tiny_weights p (s_axes s1) (q_x q)) by (intros q Hq; apply RC; rewrite E; unfold pack; cbn [p_x]; now apply in_map).
      assert (Ol : spline p = Deg1 -> forall q, In q l -> off_lines p (s_axes s1) (q_x q)).
      { intros Hs q Hq. apply off_lines_iff. apply RC; auto. rewrite E; unfold pack; cbn [p_x]; now apply in_map. }
      specialize (B1 Np). subst P. rewrite E in B2.
      assert (Lp : length (p_x (pack l)) = length l) by (unfold pack; cbn [p_x]; apply map_length). rewrite Lp in B2.
      destruct (nodes_law p Hdx Hm (s_axes s1) GO l Cov Nt Ol _ (vs_p2g sc V _) g1 B2 _ _ _ _ g2 (vs_euler sc V _) B3) as (NL & _).
      assert (Ep : nth_error (positions (s_axes s1)) j = Some (node_pos p (s_axes s1) j)).
      { rewrite (positions_spec p) by auto. rewrite nth_error_map, (nth_error_nth' _ 0%nat) by (rewrite seq_length; unfold j; lia). rewrite seq_nth by (unfold j; lia). reflexivity. }
      destruct (F2_at _ _ _ _ _ NL j _ _ Ep En') as [N1 N2 N3].
      destruct (Rle_dec (nd_m nd') 0) as [Mz|Mz].
      - left. apply N2. rewrite N1 in *. assert (0 <= Rsum (fun q => weight p (node_pos p (s_axes s1) j) (q_x q)) l); [|nra].
        apply Rsum_nonneg. intros q _. apply (w_nonneg p).
      - right. destruct (N3 ltac:(lra)) as (free & mu & U & _ & Bc). exists free, mu. split; [|exact Bc]. unfold not_beside. intros j'' Ej''. rewrite Ej in Ej''. injection Ej'' as <-.
        rewrite E, particles_pack in Wd. apply Wd; [eapply nth_error_In; eauto|rewrite <- N1; lra|]. rewrite <- N1. exact U. }
    destruct K as [K|(free & mu & NB & Bc)]; [rewrite K, vzero_get by auto; replace (bar_side b * (s_dt s1 * 0)) with 0 by ring; lra|].
    eapply collision_bound; eauto.
  Qed.
End StepBar.
