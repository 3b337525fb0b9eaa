(** * TwinProofs: two time steps on the same grid, compared node by node and particle by particle. *)
From Coq Require Import Reals ZArith Lra Lia List Bool Permutation.
From Coquelicot Require Import Derive.
From Flocq Require Import Core.Raux.
From Verif Require Import Num NumR Tools Lin Types Remesh Objects Transfer Rma Plastic Pbc Step Save Spec SpecStep SpecMech SpecMaterial SpecMpm
  LinProofs ResProofs KernelProofs GridProofs StencilProofs IndexProofs GradProofs AccumProofs P2GProofs ConsProofs MuslProofs RemeshProofs
  PloopProofs PbcProofs StepProofs StepMech StepField PlasticModels MaterialStep OutputProofs MpmProofs BalanceProofs.
Import ListNotations.
Local Open Scope R_scope.

Section Twin.
  Context {G : Geo R} {GL : GeoLaws G}.
  Variable svd : TM -> TM * TV * TM.
  Variable uabs : R -> R.
  Variable p : Par R.
  Hypothesis Hdx : 0 < dx p.

  Lemma pos_at : forall axes, GridOk p axes -> forall j, (Z.of_nat j < prodlen axes)%Z -> nth_error (positions axes) j = Some (node_pos p axes j).
  Proof. intros axes GO j Hj. rewrite (positions_spec p) by auto. rewrite nth_error_map, (nth_error_nth' _ 0%nat) by (rewrite seq_length; lia). rewrite seq_nth by lia. reflexivity. Qed.
  Lemma pos_len : forall axes, GridOk p axes -> Z.of_nat (length (positions axes)) = prodlen axes.
  Proof. intros axes GO. rewrite (positions_spec p) by auto. rewrite map_length, seq_length. apply Z2Nat.id. clear. unfold prodlen. induction axes; cbn [fold_right]; [lia|]. apply Z.mul_nonneg_nonneg; lia. Qed.

  (** Two grids whose nodes around [x] are at the same places. *)
  Definition alike (it it' : Item R) : Prop := it_x it' = it_x it /\ it_w it' = it_w it /\ it_g it' = it_g it.
  Definition same_items (axes axes' : list (Axis R)) (x : TV) : Prop := Forall2 alike (items_of p axes x) (items_of p axes' x).
  Lemma same_items_refl : forall axes x, same_items axes axes x.
  Proof. intros. unfold same_items. induction (items_of p axes x); constructor; auto. repeat split. Qed.

  Lemma shifted_axis : forall a a' (x : R) (m : Z), ax_c a' = ax_c a + IZR m * dx p ->
    Forall2 (fun i i' => ai_x i' = ai_x i /\ ai_w i' = ai_w i /\ ai_g i' = ai_g i) (ax_list p a x) (ax_list p a' x).
  Proof.
    intros a a' x m E. assert (C : cell_of p a' x = (cell_of p a x - m)%Z).
    { unfold cell_of. rewrite E. replace ((x - (ax_c a + IZR m * dx p)) / dx p) with ((x - ax_c a) / dx p + IZR (- m)) by (rewrite opp_IZR; field; lra).
      apply Zfloor_imp. rewrite !plus_IZR, minus_IZR, opp_IZR. pose proof (Zfloor_lb ((x - ax_c a) / dx p)). pose proof (Zfloor_ub ((x - ax_c a) / dx p)). lra. }
    unfold ax_list. rewrite C. assert (X : forall d, axitem p a' x (cell_of p a x - m - 1 + d) = mkAxItem (cell_of p a x - m - 1 + d)%Z (ai_x (axitem p a x (cell_of p a x - 1 + d))) (ai_w (axitem p a x (cell_of p a x - 1 + d))) (ai_g (axitem p a x (cell_of p a x - 1 + d)))).
    { intros d. unfold axitem. cbv zeta. cbn [ai_x ai_w ai_g]. rewrite E. replace (ax_c a + IZR m * dx p + IZR (cell_of p a x - m - 1 + d) * dx p) with (ax_c a + IZR (cell_of p a x - 1 + d) * dx p) by (rewrite !plus_IZR, !minus_IZR; ring). reflexivity. }
    cbn [map]. rewrite !X. repeat constructor.
  Qed.
  Lemma F2_flat : forall X X' Y Y' (Q : X -> X' -> Prop) (Q' : Y -> Y' -> Prop) f f' l l', Forall2 Q l l' -> (forall a a', Q a a' -> Forall2 Q' (f a) (f' a')) -> Forall2 Q' (flat_map f l) (flat_map f' l').
  Proof. intros X X' Y Y' Q Q' f f' l l' F H. induction F; cbn [flat_map]; [constructor|]. apply Forall2_app; auto. Qed.
  Lemma F2_mp : forall X X' Y Y' (Q : X -> X' -> Prop) (Q' : Y -> Y' -> Prop) f f' l l', Forall2 Q l l' -> (forall a a', Q a a' -> Q' (f a) (f' a')) -> Forall2 Q' (map f l) (map f' l').
  Proof. intros X X' Y Y' Q Q' f f' l l' F H. induction F; cbn [map]; constructor; auto. Qed.
  Theorem aligned_items : forall axes axes' x, length axes = dim -> length axes' = dim ->
    (forall k a a', nth_error axes k = Some a -> nth_error axes' k = Some a' -> exists m : Z, ax_c a' = ax_c a + IZR m * dx p) -> same_items axes axes' x.
  Proof.
    intros axes axes' x L L' H. unfold same_items.
    destruct (axes_cases axes L) as [(D & ax & ay & ->)|(D & ax & ay & az & ->)]; destruct (axes_cases axes' L') as [(D' & bx & by' & ->)|(D' & bx & by' & bz & ->)]; try (rewrite D in D'; discriminate).
    - destruct (H 0%nat _ _ eq_refl eq_refl) as (m0 & E0). destruct (H 1%nat _ _ eq_refl eq_refl) as (m1 & E1). unfold items_of, items2.
      eapply F2_flat; [exact (shifted_axis ax bx _ m0 E0)|]. intros a a' (A1 & A2 & A3). eapply F2_mp; [exact (shifted_axis ay by' _ m1 E1)|]. intros b b' (B1 & B2 & B3).
      unfold alike, item2. cbn [it_x it_w it_g]. rewrite A1, A2, A3, B1, B2, B3. auto.
    - destruct (H 0%nat _ _ eq_refl eq_refl) as (m0 & E0). destruct (H 1%nat _ _ eq_refl eq_refl) as (m1 & E1). destruct (H 2%nat _ _ eq_refl eq_refl) as (m2 & E2). unfold items_of, items3.
      eapply F2_flat; [exact (shifted_axis ax bx _ m0 E0)|]. intros a a' (A1 & A2 & A3). eapply F2_flat; [exact (shifted_axis ay by' _ m1 E1)|]. intros b b' (B1 & B2 & B3).
      eapply F2_mp; [exact (shifted_axis az bz _ m2 E2)|]. intros c c' (C1 & C2 & C3).
      unfold alike, item3. cbn [it_x it_w it_g]. rewrite A1, A2, A3, B1, B2, B3, C1, C2, C3. auto.
  Qed.
  Lemma Rsum_F2 : forall X Y (Q : X -> Y -> Prop) (f : X -> R) (g : Y -> R) l l', Forall2 Q l l' -> (forall a b, In a l -> In b l' -> Q a b -> f a = g b) -> Rsum f l = Rsum g l'.
  Proof. intros X Y Q f g l l' F H. induction F; cbn [Rsum]; auto. f_equal; [apply H; auto; now left|]. apply IHF. intros; apply H; auto; now right. Qed.

  Variables axes axes' : list (Axis R).
  Hypothesis GO : GridOk p axes.
  Hypothesis GO' : GridOk p axes'.
  Notation pos := (positions axes).
  Notation pos' := (positions axes').

  (** The nodes that [x] sees. *)
  Definition seen (x : TV) (g g' : list (Node R)) (Q : TV -> Node R -> Node R -> Prop) : Prop :=
    forall j j' X nd nd', nth_error pos j = Some X -> nth_error g j = Some nd -> nth_error pos' j' = Some X -> nth_error g' j' = Some nd' -> 0 < weight p X x -> Q X nd nd'.

  Section At.
    Variable x : TV.
    Hypothesis Cx : Covered p axes x.
    Hypothesis Cx' : Covered p axes' x.
    Hypothesis Al : same_items axes axes' x.
    Variables g g' : list (Node R).
    Hypothesis Lg : length g = length pos.
    Hypothesis Lg' : length g' = length pos'.
    Notation its := (items_of p axes x).
    Notation its' := (items_of p axes' x).

    Lemma seen_item : forall Q it it', seen x g g' Q -> In it its -> In it' its' -> alike it it' -> it_w it <> 0 -> Q (it_x it) (nd_at g it) (nd_at g' it').
    Proof.
      intros Q it it' Hs Hi Hi' (Ax & _) Hw. destruct (stencil_cov p Hdx axes x GO Cx) as (_ & _ & S). pose proof (sl_idx _ _ _ _ S it Hi) as Hx. pose proof (sl_w _ _ _ _ S it Hi) as Hp.
      destruct (stencil_cov p Hdx axes' x GO' Cx') as (_ & _ & S'). pose proof (sl_idx _ _ _ _ S' it' Hi') as Hx'.
      pose proof (pos_len axes GO) as PL. pose proof (pos_len axes' GO') as PL'.
      apply (Hs (Z.to_nat (it_idx it)) (Z.to_nat (it_idx it'))).
      - rewrite (stencil_pos p Hdx axes x it GO Cx Hi). apply pos_at; auto. lia.
      - unfold nd_at. apply nth_error_nth'. lia.
      - rewrite <- Ax, (stencil_pos p Hdx axes' x it' GO' Cx' Hi'). apply pos_at; auto. lia.
      - unfold nd_at. apply nth_error_nth'. lia.
      - rewrite <- (item_weight p Hdx axes x it GO Cx Hi). lra.
    Qed.
    Lemma interp2 : forall (f f' : TV -> Node R -> R) (h : TV -> R), seen x g g' (fun X nd nd' => f' X nd' = f X nd + h X) ->
      interpolated p (combine pos' g') x f' = interpolated p (combine pos g) x f + Rsum (fun it => it_w it * h (it_x it)) its.
    Proof.
      intros f f' h Hs. pose proof (pos_len axes GO) as PL. pose proof (pos_len axes' GO') as PL'. rewrite <- (gather_w p Hdx axes x) by (auto; lia). rewrite <- (gather_w p Hdx axes' x) by (auto; lia).
      rewrite <- Rsum_plus. symmetry. apply (Rsum_F2 _ _ alike _ _ _ _ Al). intros it it' Hi Hi' A. pose proof A as (Ax & Aw & _). rewrite Ax, Aw.
      destruct (Req_dec (it_w it) 0) as [->|Hw]; [ring|]. pose proof (seen_item _ it it' Hs Hi Hi' A Hw) as E. cbv beta in E. rewrite E. ring.
    Qed.
    Lemma interp2_const : forall (f f' : TV -> Node R -> R) c, seen x g g' (fun X nd nd' => f' X nd' = f X nd + c) ->
      interpolated p (combine pos' g') x f' = interpolated p (combine pos g) x f + c.
    Proof.
      intros f f' c Hs. rewrite (interp2 f f' (fun _ => c) Hs). f_equal. destruct (stencil_cov p Hdx axes x GO Cx) as (_ & _ & S).
      rewrite (Rsum_ext _ (fun it => c * it_w it)) by (intros; ring). rewrite Rsum_scal. transitivity (c * 1); [f_equal; exact (sl_1 _ _ _ _ S)|ring].
    Qed.
    Lemma interp2_lin : forall (f f' : TV -> Node R -> R) c k, (k < dim)%nat -> seen x g g' (fun X nd nd' => f' X nd' = f X nd + c * (vget X k - vget x k)) ->
      interpolated p (combine pos' g') x f' = interpolated p (combine pos g) x f.
    Proof.
      intros f f' c k Hk Hs. rewrite (interp2 f f' (fun X => c * (vget X k - vget x k)) Hs). destruct (stencil_cov p Hdx axes x GO Cx) as (_ & _ & S).
      rewrite (Rsum_ext _ (fun it => c * (it_w it * (vget (it_x it) k - vget x k)))) by (intros; ring). rewrite Rsum_scal, (sl_x _ _ _ _ S k Hk). ring.
    Qed.
    Lemma grad2 : (spline p = Deg1 -> off_lines p axes x) -> (spline p = Deg1 -> off_lines p axes' x) -> forall (f f' : TV -> Node R -> R) c k, (k < dim)%nat ->
      seen x g g' (fun X nd nd' => f' X nd' = f X nd + c) ->
      Rsum (fun Xn => dweight p (fst Xn) x k * f' (fst Xn) (snd Xn)) (combine pos' g') = Rsum (fun Xn => dweight p (fst Xn) x k * f (fst Xn) (snd Xn)) (combine pos g).
    Proof.
      intros Off Off' f f' c k Hk Hs. pose proof (pos_len axes GO) as PL. pose proof (pos_len axes' GO') as PL'. destruct (stencil_cov p Hdx axes x GO Cx) as (_ & _ & S).
      rewrite <- (gather_d p Hdx axes x g f k) by (auto; lia). rewrite <- (gather_d p Hdx axes' x g' f' k) by (auto; lia).
      replace (Rsum (fun it => vget (it_g it) k * f (it_x it) (nd_at g it)) its) with (Rsum (fun it => vget (it_g it) k * f (it_x it) (nd_at g it)) its + Rsum (fun it => c * vget (it_g it) k) its) by (rewrite Rsum_scal, (sl_g _ _ _ _ S Off k Hk); ring).
      rewrite <- Rsum_plus. symmetry. apply (Rsum_F2 _ _ alike _ _ _ _ Al). intros it it' Hi Hi' A. pose proof A as (Ax & _ & Ag). rewrite Ax, Ag.
      destruct (Req_dec (it_w it) 0) as [Hw|Hw]; [rewrite (sl_0 _ _ _ _ S it k Hi Hk Hw); ring|]. pose proof (seen_item _ it it' Hs Hi Hi' A Hw) as E. cbv beta in E. rewrite E. ring.
    Qed.
  End At.

  (** Particle [q'] has the velocity of [q] plus [U] and is otherwise the same. *)
  Definition boosted (U : TV) (q q' : P1 R) : Prop :=
    q_x q' = q_x q /\ q_v q' = vadd (q_v q) U /\ q_h q' = q_h q /\ q_F q' = q_F q /\ q_B q' = q_B q /\ q_tau q' = q_tau q.
  Definition vel_shift (U : TV) : TV -> Node R -> Node R -> Prop := fun _ nd nd' => forall k, (k < dim)%nat -> vget (nd_v nd') k = vget (nd_v nd) k + vget U k.
  Definition proj_shift (U : TV) (l l' : list (P1 R)) : TV -> Node R -> Node R -> Prop := fun X _ _ => forall k, (k < dim)%nat -> projected p l' X k = projected p l X k + vget U k.

  Section Particle.
    Variables (U : TV) (dt : R) (l l' : list (P1 R)) (g g' h h' : list (Node R)) (q q' q1 q1' : P1 R).
    Hypothesis Lg : length g = length pos.
    Hypothesis Lg' : length g' = length pos'.
    Hypothesis Lh : length h = length pos.
    Hypothesis Lh' : length h' = length pos'.
    Hypothesis Cx : Covered p axes (q_x q).
    Hypothesis Cx' : Covered p axes' (q_x q).
    Hypothesis Al : same_items axes axes' (q_x q).
    Hypothesis Off : spline p = Deg1 -> off_lines p axes (q_x q).
    Hypothesis Off' : spline p = Deg1 -> off_lines p axes' (q_x q).
    Hypothesis B : boosted U q q'.
    Hypothesis P : particle_law svd uabs p dt l (combine pos g) (combine pos h) q q1.
    Hypothesis P' : particle_law svd uabs p dt l' (combine pos' g') (combine pos' h') q' q1'.
    Hypothesis V : seen (q_x q) g g' (vel_shift U).
    Hypothesis Pj : seen (q_x q) g g' (proj_shift U l l').

    Lemma twin_x : change_pos p = false -> forall k, (k < dim)%nat -> vget (q_x q1') k = vget (q_x q1) k + dt * vget U k.
    Proof.
      intros Hc k Hk. destruct B as (Bx & _). rewrite (pl_moves _ _ _ _ _ _ _ _ _ P Hc k Hk), (pl_moves _ _ _ _ _ _ _ _ _ P' Hc k Hk), Bx.
      rewrite (interp2_const (q_x q) Cx Cx' Al g g' Lg Lg' (fun _ nd => vget (nd_v nd) k) (fun _ nd => vget (nd_v nd) k) (vget U k)); [ring|].
      intros j j' X nd nd' A1 A2 A3 A4 A5. now apply (V j j' X).
    Qed.
    Lemma twin_v : forall k, (k < dim)%nat -> vget (q_v q1') k = vget (q_v q1) k + vget U k.
    Proof.
      intros k Hk. destruct B as (Bx & Bv & _). rewrite (pl_velocity _ _ _ _ _ _ _ _ _ P k Hk), (pl_velocity _ _ _ _ _ _ _ _ _ P' k Hk), Bx, Bv, vget_add by auto.
      rewrite (interp2_const (q_x q) Cx Cx' Al g g' Lg Lg' (fun _ nd => vget (nd_v nd) k) (fun _ nd => vget (nd_v nd) k) (vget U k)) by (intros j j' X nd nd' A1 A2 A3 A4 A5; now apply (V j j' X)).
      rewrite (interp2_const (q_x q) Cx Cx' Al g g' Lg Lg' (fun X nd => vget (nd_v nd) k - projected p l X k) (fun X nd => vget (nd_v nd) k - projected p l' X k) 0).
      - unfold blend. destruct (Rlt_dec _ _); [ring|]. destruct (Rlt_dec _ _); ring.
      - intros j j' X nd nd' A1 A2 A3 A4 A5. rewrite (V j j' X nd nd' A1 A2 A3 A4 A5 k Hk), (Pj j j' X nd nd' A1 A2 A3 A4 A5 k Hk). ring.
    Qed.
    Lemma twin_B : flip_ratio p < 0 -> q_B q1' = q_B q1.
    Proof.
      intros Hf. destruct B as (Bx & _). apply mext. intros i j Hi Hj. rewrite (pl_affine _ _ _ _ _ _ _ _ _ P Hf i j Hi Hj), (pl_affine _ _ _ _ _ _ _ _ _ P' Hf i j Hi Hj), Bx.
      apply (interp2_lin (q_x q) Cx Cx' Al g g' Lg Lg' _ _ (vget U i) j Hj). intros a a' X nd nd' A1 A2 A3 A4 A5. rewrite (V a a' X nd nd' A1 A2 A3 A4 A5 i Hi). ring.
    Qed.
    Lemma twin_F : seen (q_x q) h h' (vel_shift U) -> q_F q1' = q_F q1 /\ q_tau q1' = q_tau q1 /\ q_h q1' = q_h q1.
    Proof.
      intros Vh. destruct B as (Bx & _ & Bh & BF & _ & Bt).
      destruct (pl_strain _ _ _ _ _ _ _ _ _ P) as (L & o & EL & Eo & -> & -> & ->). destruct (pl_strain _ _ _ _ _ _ _ _ _ P') as (L' & o' & EL' & Eo' & -> & -> & ->).
      assert (L' = L).
      { apply mext. intros i j Hi Hj. rewrite EL, EL', Bx by auto.
        rewrite (Rsum_ext _ (fun Xn => dweight p (fst Xn) (q_x q) j * vget (nd_v (snd Xn)) i)) by (intros; ring). symmetry.
        rewrite (Rsum_ext _ (fun Xn => dweight p (fst Xn) (q_x q) j * vget (nd_v (snd Xn)) i)) by (intros; ring). symmetry.
        apply (grad2 (q_x q) Cx Cx' Al h h' Lh Lh' Off Off' (fun _ nd => vget (nd_v nd) i) (fun _ nd => vget (nd_v nd) i) (vget U i) j Hj).
        intros a a' X nd nd' A1 A2 A3 A4 A5. now apply (Vh a a' X). }
      subst L'. cbv zeta in Eo, Eo'. rewrite Bh, BF, Bt, Eo in Eo'. apply Ok_inj in Eo'. subst o'. auto.
    Qed.
  End Particle.
End Twin.
