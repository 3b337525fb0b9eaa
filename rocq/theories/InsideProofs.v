(** * InsideProofs: orientation of particles (C78). *)
From Coq Require Import Reals ZArith Lra Lia Psatz List Bool.
From Verif Require Import Num NumR Tools Lin Types Remesh Objects Transfer Rma Plastic Pbc Step Spec SpecStep SpecMech SpecPlastic SpecMaterial
  LinProofs ResProofs IndexProofs OutputProofs KernelProofs GridProofs StencilProofs PlasticProofs PlasticModels PlasticGlue MaterialStep.
Import ListNotations.
Local Open Scope R_scope.

(** ** Determinant of a diagonally dominant matrix *)
Lemma dom2 : forall a b c d, Rabs b < a -> Rabs c < d -> 0 < a * d - c * b.
Proof.
  intros a b c d H1 H2. pose proof (Rabs_pos b). pose proof (Rabs_pos c). pose proof (Rle_abs (c * b)) as E. rewrite Rabs_mult in E. nra.
Qed.
Lemma dom3 : forall a b c d e f g h i, Rabs b + Rabs c < a -> Rabs d + Rabs f < e -> Rabs g + Rabs h < i ->
  0 < a * (e * i - f * h) - b * (d * i - f * g) + c * (d * h - e * g).
Proof.
  intros a b c d e f g h i H1 H2 H3. pose proof (Rabs_pos b). pose proof (Rabs_pos c). pose proof (Rabs_pos d). pose proof (Rabs_pos f). pose proof (Rabs_pos g). pose proof (Rabs_pos h).
  assert (Ha : 0 < a) by lra.
  (* Schur complement of the first entry *)
  set (e' := e - d * b / a). set (f' := f - d * c / a). set (h' := h - g * b / a). set (i' := i - g * c / a).
  assert (D : a * (e * i - f * h) - b * (d * i - f * g) + c * (d * h - e * g) = a * (e' * i' - h' * f')) by (unfold e', f', h', i'; field; lra).
  rewrite D. apply Rmult_lt_0_compat; [exact Ha|].
  assert (Q : forall u v w y, Rabs u + Rabs w < y -> Rabs (w - u * v / a) <= Rabs w + Rabs u * Rabs v / a).
  { intros u v w y _. eapply Rle_trans; [apply Rabs_triang|]. rewrite Rabs_Ropp. unfold Rdiv. rewrite !Rabs_mult, (Rabs_right (/ a)); [lra|].
    apply Rle_ge, Rlt_le, Rinv_0_lt_compat, Ha. }
  assert (P : forall u, 0 <= u -> u * (Rabs b + Rabs c) / a <= u).
  { intros u Hu. apply Rmult_le_reg_r with a; [exact Ha|]. unfold Rdiv. rewrite Rmult_assoc, Rinv_l by lra. nra. }
  apply dom2.
  - unfold e', f'. pose proof (Q d c f e H2) as Q1. pose proof (P (Rabs d) (Rabs_pos d)) as P1.
    assert (d * b / a <= Rabs d * Rabs b / a).
    { unfold Rdiv. apply Rmult_le_compat_r; [apply Rlt_le, Rinv_0_lt_compat, Ha|]. rewrite <- Rabs_mult. apply Rle_abs. }
    replace (Rabs d * (Rabs b + Rabs c) / a) with (Rabs d * Rabs b / a + Rabs d * Rabs c / a) in P1 by (field; lra). lra.
  - unfold h', i'. pose proof (Q g b h i H3) as Q1. pose proof (P (Rabs g) (Rabs_pos g)) as P1.
    assert (g * c / a <= Rabs g * Rabs c / a).
    { unfold Rdiv. apply Rmult_le_compat_r; [apply Rlt_le, Rinv_0_lt_compat, Ha|]. rewrite <- Rabs_mult. apply Rle_abs. }
    replace (Rabs g * (Rabs b + Rabs c) / a) with (Rabs g * Rabs b / a + Rabs g * Rabs c / a) in P1 by (field; lra). lra.
Qed.
Lemma det_increment : forall G, two_or_three G -> forall dt (L : @TM R G), 0 <= dt ->
  (forall i, (i < dim)%nat -> dt * Rsum (fun j => Rabs (mget L i j)) (seq 0 dim) < 1) -> 0 < mdet (increment dt L).
Proof.
  intros G HG dt L Hdt H. pose proof (geolaws G HG) as GL.
  assert (E : forall i j, (i < dim)%nat -> (j < dim)%nat -> mget (increment dt L) i j = (if Nat.eqb i j then 1 else 0) + mget L i j * dt).
  { intros i j Hi Hj. unfold increment. rewrite mget_add, mget_ident, mget_scale by auto. numR. destruct (Nat.eqb i j); ring. }
  unfold mdet. destruct (gl_dim (G := G)) as [D|D]; rewrite D in *.
  - pose proof (H 0%nat ltac:(lia)) as H0. pose proof (H 1%nat ltac:(lia)) as H1. cbn [seq Rsum] in H0, H1.
    numR. rewrite !E by lia. cbn [Nat.eqb]. 
    assert (B : forall x, Rabs (0 + x * dt) = dt * Rabs x) by (intros; rewrite Rplus_0_l, Rabs_mult, (Rabs_right dt) by lra; ring).
    assert (C : forall x, - (dt * Rabs x) <= x * dt) by (intros; pose proof (Rle_abs (-x)) as Q; rewrite Rabs_Ropp in Q; nra).
    apply dom2; rewrite B; [pose proof (C (mget L 0 0))|pose proof (C (mget L 1 1))]; lra.
  - pose proof (H 0%nat ltac:(lia)) as H0. pose proof (H 1%nat ltac:(lia)) as H1. pose proof (H 2%nat ltac:(lia)) as H2. cbn [seq Rsum] in H0, H1, H2.
    numR. rewrite !E by lia. cbn [Nat.eqb].
    assert (B : forall x, Rabs (0 + x * dt) = dt * Rabs x) by (intros; rewrite Rplus_0_l, Rabs_mult, (Rabs_right dt) by lra; ring).
    assert (C : forall x, - (dt * Rabs x) <= x * dt) by (intros; pose proof (Rle_abs (-x)) as Q; rewrite Rabs_Ropp in Q; nra).
    apply dom3; rewrite !B; [pose proof (C (mget L 0 0))|pose proof (C (mget L 1 1))|pose proof (C (mget L 2 2))]; lra.
Qed.

(** ** The plastic correction keeps the orientation *)
Lemma fold_mult_pos : forall l, (forall x, In x l -> 0 <= x) -> 0 <= fold_right Rmult 1 l.
Proof. intros l. induction l as [|x l IH]; intros H; cbn; [lra|]. apply Rmult_le_pos; [apply H; now left|apply IH; intros; apply H; now right]. Qed.
Lemma plast_orientation : forall G, two_or_three G -> forall svd uabs p dt F tau h o, svd_ok svd -> 
  plasticity svd uabs p dt F tau h = Ok o -> 0 < mdet F -> 0 < mdet (o_F o).
Proof.
  intros G HG svd uabs p dt F tau h o Sv H D. pose proof (geolaws G HG) as GL. apply plast_inv in H. destruct H as (U & s & V & r & Es & Hr & HF & _).
  pose proof (Sv _ _ _ _ Es) as S0. 
  assert (DF : mdet F = mdet U * mdet V * fold_right Rmult 1 (map (vget s) (seq 0 dim))).
  { rewrite (sv_F _ _ _ _ S0). rewrite !mdet_mul, mdet_tr, mdet_diag by auto. ring. }
  assert (Pp : 0 <= fold_right Rmult 1 (map (vget s) (seq 0 dim))).
  { apply fold_mult_pos. intros x Hx. apply in_map_iff in Hx. destruct Hx as (k & <- & Hk). apply in_seq in Hk. apply (sv_s _ _ _ _ S0). lia. }
  assert (UV : 0 < mdet U * mdet V) by nra.
  rewrite HF. destruct (r_upd r); [exact D| |].
  - rewrite mdet_rebuild by auto. apply Rmult_lt_0_compat; [exact UV|apply exp_pos].
  - rewrite mdet_mul, mdet_tr by auto. exact UV.
Qed.

(** ** Bound on the velocity gradient by the nodal velocities *)
Lemma dN_abs : forall s f, 0 <= f < 1 ->
  Rabs (dNdu s (f + 1)) + Rabs (dNdu s f) + Rabs (dNdu s (f - 1)) + Rabs (dNdu s (f - 2)) <= 2.
Proof.
  intros s f [H1 H2].
  destruct (Req_EM_T f 0) as [->|Hf].
  { assert (S4 : - (1) <= dNdu s (0 + 1) <= 0 /\ - (1) <= dNdu s 0 <= 1 /\ 0 <= dNdu s (0 - 1) <= 1 /\ dNdu s (0 - 2) = 0 /\
      (dNdu s 0 = 0 \/ dNdu s (0 + 1) = 0)).
    { destruct s; (split; [split|split; [split|split; [split|split]]]); solve [kern]. }
    destruct S4 as ([A1 A2] & [B1 B2] & [C1 C2] & -> & E). rewrite Rabs_R0, (Rabs_left1 _ A2), (Rabs_pos_eq _ C1).
    assert (Rabs (dNdu s 0) <= 1) by (apply Rabs_le; lra). destruct E as [E|E]; rewrite E in *; rewrite ?Rabs_R0; lra. }
  assert (Sg : dNdu s (f + 1) <= 0 /\ dNdu s f <= 0 /\ 0 <= dNdu s (f - 1) /\ 0 <= dNdu s (f - 2) /\
    - dNdu s (f + 1) - dNdu s f + dNdu s (f - 1) + dNdu s (f - 2) <= 2).
  { assert (0 < f) by lra. destruct s; (split; [|split; [|split; [|split]]]); kern. }
  destruct Sg as (A & B & C & D & E). rewrite (Rabs_left1 _ A), (Rabs_left1 _ B), (Rabs_pos_eq _ C), (Rabs_pos_eq _ D). lra.
Qed.

Section Grad.
  Context {G : Geo R} {GL : GeoLaws G}.
  Variable p : Par R.
  Hypothesis Hdx : 0 < dx p.
  Lemma ax_abs : forall a x, Rsum (fun i => Rabs (ai_g i)) (ax_list p a x) <= 2 / dx p.
  Proof.
    intros a x. pose proof (frac_range p a x) as Hf. set (f := frac_of p a x) in *. set (s := spline p).
    assert (L : Rsum (fun i => Rabs (ai_g i)) (ax_list p a x) = Rsum (fun d => Rabs (dNdu s (f + (1 - IZR d)) * / dx p)) [0;1;2;3]%Z).
    { unfold ax_list. rewrite Rsum_map. apply Rsum_ext. intros d _. unfold axitem. cbn [ai_g].
      numR. rewrite !ax_arg by exact Hdx. fold s f. rewrite one_over_inv by exact Hdx. reflexivity. }
    assert (A0 : f + (1 - 0) = f + 1) by lra. assert (A1 : f + (1 - 1) = f) by lra.
    assert (A2 : f + (1 - 2) = f - 1) by lra. assert (A3 : f + (1 - 3) = f - 2) by lra.
    rewrite L. cbn [Rsum]. rewrite A0, A1, A2, A3, !Rabs_mult, (Rabs_right (/ dx p)) by (apply Rle_ge, Rlt_le, Rinv_0_lt_compat, Hdx).
    pose proof (dN_abs s f Hf). pose proof (Rinv_0_lt_compat _ Hdx). unfold Rdiv. nra.
  Qed.
  Lemma ax_w1 : forall a x, Rsum (fun i => Rabs (ai_w i)) (ax_list p a x) = 1.
  Proof.
    intros a x. pose proof (ax_laws p Hdx a x) as L. rewrite <- (al_1 _ _ _ _ L). apply Rsum_ext. intros i Hi. apply Rabs_pos_eq. exact (al_w _ _ _ _ L i Hi).
  Qed.
  Lemma grad_abs : forall axes x items, GridOk p axes -> stencil base_g2p p axes x = Ok items -> forall k, (k < dim)%nat ->
    Rsum (fun it => Rabs (vget (it_g it) k)) items <= 2 / dx p.
  Proof.
    intros axes x items GO E k Hk. pose proof (stencil_g2p_covered p Hdx axes x items GO E) as C.
    destruct (stencil_cov p Hdx axes x GO C) as (_ & E' & _). rewrite E in E'. apply Ok_inj in E'. subst items.
    destruct (axes_cases axes (go_dim _ _ GO)) as [(D & ax & ay & ->)|(D & ax & ay & az & ->)]; cbn [items_of].
    - unfold items2. assert (K : k = 0%nat \/ k = 1%nat) by lia. destruct K as [-> | ->].
      + rewrite (Rsum_items2 _ (fun a => Rabs (ai_g a)) (fun b => Rabs (ai_w b))).
        * rewrite ax_w1, Rmult_1_r. apply ax_abs.
        * intros; unfold item2; cbn [it_g]. autorewrite with geo. simpl Nat.eqb. cbv iota. numR. rewrite ?Rabs_mult. ring.
      + rewrite (Rsum_items2 _ (fun a => Rabs (ai_w a)) (fun b => Rabs (ai_g b))).
        * rewrite ax_w1, Rmult_1_l. apply ax_abs.
        * intros; unfold item2; cbn [it_g]. autorewrite with geo. simpl Nat.eqb. cbv iota. numR. rewrite ?Rabs_mult. ring.
    - unfold items3. assert (K : k = 0%nat \/ k = 1%nat \/ k = 2%nat) by lia. destruct K as [-> | [-> | ->]].
      + rewrite (Rsum_items3 _ _ (fun a => Rabs (ai_g a)) (fun b => Rabs (ai_w b)) (fun b => Rabs (ai_w b))).
        * rewrite !ax_w1, !Rmult_1_r. apply ax_abs.
        * intros; unfold item3; cbn [it_g]. rewrite vs3_0. numR. rewrite ?Rabs_mult. ring.
      + rewrite (Rsum_items3 _ _ (fun a => Rabs (ai_w a)) (fun b => Rabs (ai_g b)) (fun b => Rabs (ai_w b))).
        * rewrite !ax_w1, !Rmult_1_r, !Rmult_1_l. apply ax_abs.
        * intros; unfold item3; cbn [it_g]. rewrite vs3_1. numR. rewrite ?Rabs_mult. ring.
      + rewrite (Rsum_items3 _ _ (fun a => Rabs (ai_w a)) (fun b => Rabs (ai_w b)) (fun b => Rabs (ai_g b))).
        * rewrite !ax_w1, !Rmult_1_l. apply ax_abs.
        * intros; unfold item3; cbn [it_g]. rewrite vs3_2 by lia. numR. rewrite ?Rabs_mult. ring.
  Qed.
  (** Nodal velocities within [c] of a common velocity [u] bound the velocity gradient. *)
  Lemma vg_bound : forall axes nodes x L (u : TV) c, GridOk p axes -> velocity_gradient p axes nodes x L -> 0 <= c ->
    (spline p = Deg1 -> u = vzero) ->
    (forall nd k, In nd nodes -> (k < dim)%nat -> Rabs (vget (nd_v nd) k - vget u k) <= c) ->
    (forall items it, stencil base_g2p p axes x = Ok items -> In it items -> (0 <= it_idx it < Z.of_nat (length nodes))%Z) ->
    forall i j, (i < dim)%nat -> (j < dim)%nat -> Rabs (mget L i j) <= 2 * c / dx p.
  Proof.
    intros axes nodes x L u c GO (items & E & HL) Hc Hu Hn Hin i j Hi Hj.
    pose proof (stencil_g2p_covered p Hdx axes x items GO E) as C.
    destruct (stencil_cov p Hdx axes x GO C) as (_ & E' & SLx). rewrite E in E'. apply Ok_inj in E'. rewrite <- E' in SLx.
    assert (S0 : vget u i * Rsum (fun it => vget (it_g it) j) items = 0).
    { destruct (spline p) eqn:Sp.
      - rewrite (Hu eq_refl), vget_zero by auto. ring.
      - rewrite (sl_g _ _ _ _ SLx) by (auto; congruence). ring.
      - rewrite (sl_g _ _ _ _ SLx) by (auto; congruence). ring. }
    rewrite HL by auto.
    replace (Rsum (fun it => node_v nodes it i * vget (it_g it) j) items) with (Rsum (fun it => (node_v nodes it i - vget u i) * vget (it_g it) j) items).
    2:{ rewrite <- (Rminus_0_r (Rsum (fun it => node_v nodes it i * _) items)), <- S0, <- Rsum_scal, <- Rsum_minus. apply Rsum_ext. intros; ring. }
    eapply Rle_trans; [apply Rabs_Rsum|].
    apply Rle_trans with (Rsum (fun it => c * Rabs (vget (it_g it) j)) items).
    - apply Rsum_le. intros it Hit. rewrite Rabs_mult. apply Rmult_le_compat_r; [apply Rabs_pos|].
      destruct (rd_some nodes (it_idx it) (Hin items it E Hit)) as (nd & Hnd). unfold node_v. rewrite Hnd. apply Hn; auto. apply rd_Ok in Hnd; destruct Hnd as (_ & Hnd); eapply nth_error_In; eauto.
    - rewrite Rsum_scal. pose proof (grad_abs axes x items GO E j Hj). unfold Rdiv in *. nra.
  Qed.
End Grad.

(** After a step the node arrays have the size of the grid. *)
Lemma step_sized : forall (G : Geo R) svd uabs af p sc s0 s1, advanceStep svd uabs af p sc s0 = Ok s1 -> grid_sized s1.
Proof.
  intros G svd uabs af p sc s0 s1 H. unfold advanceStep in H. cbv zeta in H.
  apply bind_Ok in H. destruct H as (a1 & E1 & H). apply bind_Ok in H. destruct H as (a2 & E2 & H).
  apply bind_Ok in H. destruct H as (a3 & E3 & H). apply bind_Ok in H. destruct H as (g1 & Eg1 & H).
  apply bind_Ok in H. destruct H as (g2 & Eg2 & H). apply bind_Ok in H. destruct H as (a5 & E5 & H).
  apply bind_Ok in H. destruct H as (r & Er & H). apply bind_Ok in H. destruct H as (a7 & E7 & H).
  apply bind_Ok in H. destruct H as (q & Eq & H). apply Ok_inj in H. subst s1. clear Eq Er.
  apply p2g_len in Eg1. apply euler_len in Eg2. unfold resizeGrid in Eg1. rewrite repeat_length in Eg1.
  assert (A5 : s_axes a5 = s_axes a3 /\ s_nodes a5 = g2).
  { unfold pbc_after in E5. destruct (use_pbc p); [apply bind_Ok in E5; destruct E5 as (? & _ & E5)|]; apply Ok_inj in E5; subst a5; auto. }
  assert (A7 : s_axes a7 = s_axes a3 /\ length (s_nodes a7) = length g2).
  { destruct A5 as (X1 & X3). unfold musl_part in E7. destruct (use_musl p).
    - apply bind_Ok in E7. destruct E7 as (rv & _ & E7). apply bind_Ok in E7. destruct E7 as (g3 & Eg3 & E7). apply bind_Ok in E7. destruct E7 as (d & _ & E7).
      apply Ok_inj in E7. subst a7. cbn. apply musl_len in Eg3. split; [exact X1|]. rewrite Eg3. cbn. now rewrite X3.
    - apply Ok_inj in E7. subst a7. cbn. rewrite X3. auto. }
  destruct A7 as (X1 & X3). unfold grid_sized. cbn [with_plates with_p s_axes s_mesh s_nodes]. rewrite X1, X3, Eg2, Eg1. reflexivity.
Qed.
