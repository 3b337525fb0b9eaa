(** * GalileiProofs: a time step of a body in uniform motion. *)
From Coq Require Import Reals ZArith Lra Lia List Bool Permutation.
From Verif Require Import Num NumR Tools Lin Types Remesh Objects Transfer Rma Plastic Pbc Step Save Spec SpecStep SpecMech SpecMaterial SpecMpm SpecGalilei
  LinProofs ResProofs KernelProofs GridProofs StencilProofs GradProofs PloopProofs StepProofs StepMech StepField PlasticModels MpmProofs BalanceProofs TwinProofs.
Import ListNotations.
Local Open Scope R_scope.

Section Galilei.
  Context {G : Geo R} {GL : GeoLaws G}.
  Variable svd : TM -> TM * TV * TM.
  Variable uabs : R -> R.
  Variable p : Par R.
  Hypothesis Hdx : 0 < dx p.
  Hypothesis Hm : 0 < particle_mass p.
  Hypothesis Ho : objects p = [].
  Variable U : TV.

  Lemma sum_boost : forall l l', Forall2 (boosted U) l l' -> forall f : P1 R -> R, (forall q q', boosted U q q' -> f q' = f q) -> Rsum f l' = Rsum f l.
  Proof. intros l l' F f Hf. induction F; cbn [Rsum]; [auto|]. now rewrite IHF, (Hf x y). Qed.
  Lemma mass_boost : forall l l' X, Forall2 (boosted U) l l' -> Rsum (fun q => weight p X (q_x q)) l' = Rsum (fun q => weight p X (q_x q)) l.
  Proof. intros l l' X F. apply (sum_boost l l' F). intros q q' (E & _). now rewrite E. Qed.
  Lemma internal_boost : forall l l' X k, Forall2 (boosted U) l l' -> internal p l' X k = internal p l X k.
  Proof. intros l l' X k F. unfold internal. f_equal. apply (sum_boost l l' F). intros q q' (E & _ & _ & _ & _ & E'). now rewrite E, E'. Qed.
  Lemma momentum_boost : forall l l' X k, (k < dim)%nat -> Forall2 (boosted U) l l' ->
    Rsum (fun q => weight p X (q_x q) * carried p (q_v q) (q_B q) (q_x q) X k) l' = Rsum (fun q => weight p X (q_x q) * carried p (q_v q) (q_B q) (q_x q) X k) l + Rsum (fun q => weight p X (q_x q)) l * vget U k.
  Proof.
    intros l l' X k Hk F. induction F as [|q q' l l' (E1 & E2 & _ & _ & E3 & _) F IH]; cbn [Rsum]; [ring|]. rewrite IH, E1, E2, E3. unfold carried. rewrite vget_add by auto. ring.
  Qed.
  Lemma projected_boost : forall l l' X k, (k < dim)%nat -> Forall2 (boosted U) l l' -> 0 < Rsum (fun q => weight p X (q_x q)) l -> projected p l' X k = projected p l X k + vget U k.
  Proof. intros l l' X k Hk F Hp. unfold projected. rewrite (momentum_boost l l' X k Hk F), (mass_boost l l' X F). field. lra. Qed.
  Lemma seen_mass : forall l X q, In q l -> 0 < weight p X (q_x q) -> 0 < Rsum (fun q => weight p X (q_x q)) l.
  Proof.
    intros l X q Hq Hw. apply Rlt_le_trans with (1 := Hw). apply (Rsum_ge_one (fun q => weight p X (q_x q)) l q); auto. intros x _. now apply w_nonneg.
  Qed.
  Lemma free_node : forall dt mu X v v', boundaryCollision p [] dt mu X v = Ok v' -> v' = v.
  Proof. intros dt mu X v v' E. unfold boundaryCollision, objects_loop, plates_loop in E. rewrite Ho in E. cbn in E. congruence. Qed.
  Lemma node_boost : forall dt grav l l' X nd nd', Forall2 (boosted U) l l' -> node_law p [] dt grav l X nd -> node_law p [] dt grav l' X nd' ->
    nd_m nd' = nd_m nd /\ (0 < Rsum (fun q => weight p X (q_x q)) l -> vel_shift U X nd nd').
  Proof.
    intros dt grav l l' X nd nd' F [M1 _ N1] [M2 _ N2]. rewrite (mass_boost l l' X F), <- M1 in M2. split; auto. intros Hw k Hk.
    assert (Hp : 0 < nd_m nd) by (rewrite M1; now apply Rmult_lt_0_compat). rewrite M2 in N2. destruct (N1 Hp) as (f1 & mu1 & A1 & _ & C1). destruct (N2 Hp) as (f2 & mu2 & A2 & _ & C2).
    rewrite (free_node _ _ _ _ _ C1), (free_node _ _ _ _ _ C2). specialize (A1 k Hk). specialize (A2 k Hk).
    rewrite (internal_boost l l' X k F), (projected_boost l l' X k Hk F Hw) in A2. apply Rmult_eq_reg_l with (nd_m nd); [|lra]. lra.
  Qed.
  (** The second projection of MUSL. *)
  Lemma musl_boost : forall l l' l1 l1' X nd nd' nm nm', Forall2 (boosted U) l l' -> nd_m nd = particle_mass p * Rsum (fun q => weight p X (q_x q)) l -> nd_m nd' = nd_m nd ->
    length l1 = length l -> length l1' = length l -> 
    (forall i a b, nth_error l1 i = Some a -> nth_error l1' i = Some b -> (forall k, (k < dim)%nat -> vget (q_v b) k = vget (q_v a) k + vget U k) /\ (flip_ratio p < 0 -> q_B b = q_B a)) ->
    musl_law p (combine l l1) (X, nd) nm -> musl_law p (combine l' l1') (X, nd') nm' -> 0 < Rsum (fun q => weight p X (q_x q)) l -> vel_shift U X nm nm'.
  Proof.
    intros l l' l1 l1' X nd nd' nm nm' F M1 M2 L1 L1' HB [K1 _ V1] [K2 _ V2] Hw k Hk. cbn [fst snd] in *.
    assert (Hp : 0 < nd_m nd) by (rewrite M1; now apply Rmult_lt_0_compat). rewrite K1 in V1. rewrite K2, M2 in V2. specialize (V1 Hp k Hk). specialize (V2 Hp k Hk).
    apply Rmult_eq_reg_l with (nd_m nd); [|lra]. rewrite V2, Rmult_plus_distr_l, V1, M1.
    assert (S : Rsum (fun qq => weight p X (q_x (fst qq)) * carried p (q_v (snd qq)) (q_B (snd qq)) (q_x (fst qq)) X k) (combine l' l1')
      = Rsum (fun qq => weight p X (q_x (fst qq)) * carried p (q_v (snd qq)) (q_B (snd qq)) (q_x (fst qq)) X k) (combine l l1) + Rsum (fun q => weight p X (q_x q)) l * vget U k); [|rewrite S; ring].
    clear - F L1 L1' HB Hk. revert l1 l1' L1 L1' HB. induction F as [|q q' l l' (E1 & _) F IH]; intros [|a l1] [|b l1'] L1 L1' HB; try discriminate; cbn [combine Rsum fst snd]; [ring|].
    rewrite (IH l1 l1') by (cbn in L1, L1'; try lia; intros i; apply (HB (S i))). destruct (HB 0%nat a b eq_refl eq_refl) as (Bv & BB). rewrite E1. unfold carried. rewrite (Bv k Hk).
    destruct (Rlt_dec (flip_ratio p) 0) as [Hf|]; [rewrite (BB Hf)|]; ring.
  Qed.

  Section Run.
    Variables (dt : R) (grav : TV) (axes : list (Axis R)) (l l' l1 l1' : list (P1 R)) (g g' h h' : list (Node R)).
    Hypothesis GO : GridOk p axes.
    Notation pos := (positions axes).
    Hypothesis Cov : forall q, In q l -> Covered p axes (q_x q).
    Hypothesis Off : spline p = Deg1 -> forall q, In q l -> off_lines p axes (q_x q).
    Hypothesis F : Forall2 (boosted U) l l'.
    Hypothesis N : Forall2 (node_law p [] dt grav l) pos g.
    Hypothesis N' : Forall2 (node_law p [] dt grav l') pos g'.
    Hypothesis Mu : if use_musl p then Forall2 (musl_law p (combine l l1)) (combine pos g) h else h = g.
    Hypothesis Mu' : if use_musl p then Forall2 (musl_law p (combine l' l1')) (combine pos g') h' else h' = g'.
    Hypothesis P : Forall2 (particle_law svd uabs p dt l (combine pos g) (combine pos h)) l l1.
    Hypothesis P' : Forall2 (particle_law svd uabs p dt l' (combine pos g') (combine pos h')) l' l1'.
    Lemma g_seen : forall q, In q l -> seen p axes axes (q_x q) g g' (vel_shift U) /\ seen p axes axes (q_x q) g g' (proj_shift p U l l').
    Proof.
      intros q Hq. split; intros j j' X nd nd' A1 A2 A3 A4 A5; pose proof (seen_mass l X q Hq A5) as Hw.
      - apply (node_boost dt grav l l' X nd nd' F); auto; [exact (F2_at _ _ _ _ _ N j X nd A1 A2)|exact (F2_at _ _ _ _ _ N' j' X nd' A3 A4)].
      - intros k Hk. now apply projected_boost.
    Qed.
    Lemma Lg : length g = length pos. Proof. symmetry. exact (F2_length _ _ _ _ _ N). Qed.
    Lemma Lg' : length g' = length pos. Proof. symmetry. exact (F2_length _ _ _ _ _ N'). Qed.
    Lemma at_l : forall i a b, nth_error l1 i = Some a -> nth_error l1' i = Some b -> exists q q', In q l /\ boosted U q q' /\
      particle_law svd uabs p dt l (combine pos g) (combine pos h) q a /\ particle_law svd uabs p dt l' (combine pos g') (combine pos h') q' b.
    Proof.
      intros i a b Ha Hb. assert (Li : (i < length l1)%nat) by (apply nth_error_Some; congruence). pose proof (F2_length _ _ _ _ _ P) as L1. pose proof (F2_length _ _ _ _ _ F) as L2.
      destruct (nth_error l i) as [q|] eqn:Eq; [|apply nth_error_None in Eq; lia]. destruct (nth_error l' i) as [q'|] eqn:Eq'; [|apply nth_error_None in Eq'; lia].
      exists q, q'. split; [now apply nth_error_In in Eq|]. split; [exact (F2_at _ _ _ _ _ F i q q' Eq Eq')|]. split; [exact (F2_at _ _ _ _ _ P i q a Eq Ha)|exact (F2_at _ _ _ _ _ P' i q' b Eq' Hb)].
    Qed.
    Lemma kin_boost : forall i a b, nth_error l1 i = Some a -> nth_error l1' i = Some b ->
      (forall k, (k < dim)%nat -> vget (q_v b) k = vget (q_v a) k + vget U k) /\ (flip_ratio p < 0 -> q_B b = q_B a) /\
      (change_pos p = false -> forall k, (k < dim)%nat -> vget (q_x b) k = vget (q_x a) k + dt * vget U k).
    Proof.
      intros i a b Ha Hb. destruct (at_l i a b Ha Hb) as (q & q' & Hq & B & Pq & Pq'). destruct (g_seen q Hq) as (V & Pj).
      split; [|split].
      - eapply (twin_v svd uabs p Hdx axes axes GO GO U dt l l' g g' h h' q q' a b Lg Lg'); eauto using same_items_refl.
      - eapply (twin_B svd uabs p Hdx axes axes GO GO U dt l l' g g' h h' q q' a b Lg Lg'); eauto using same_items_refl.
      - eapply (twin_x svd uabs p Hdx axes axes GO GO U dt l l' g g' h h' q q' a b Lg Lg'); eauto using same_items_refl.
    Qed.
    Lemma h_seen : (length h = length pos /\ length h' = length pos) /\ forall q, In q l -> seen p axes axes (q_x q) h h' (vel_shift U).
    Proof.
      destruct (use_musl p) eqn:Em; [|rewrite Mu, Mu'; split; [exact (Logic.conj Lg Lg')|intros q Hq; now apply g_seen]].
      pose proof (F2_length _ _ _ _ _ Mu) as Lh. pose proof (F2_length _ _ _ _ _ Mu') as Lh'. rewrite combine_length in Lh, Lh'. pose proof Lg. pose proof Lg'. split; [lia|].
      intros q Hq j j' X nm nm' A1 A2 A3 A4 A5. pose proof (seen_mass l X q Hq A5) as Hw.
      assert (Lj : (j < length pos)%nat) by (apply nth_error_Some; congruence). assert (Lj' : (j' < length pos)%nat) by (apply nth_error_Some; congruence).
      destruct (nth_error g j) as [nd|] eqn:E1; [|apply nth_error_None in E1; lia]. destruct (nth_error g' j') as [nd'|] eqn:E2; [|apply nth_error_None in E2; lia].
      pose proof (F2_at _ _ _ _ _ N j X nd A1 E1) as N1. pose proof (F2_at _ _ _ _ _ N' j' X nd' A3 E2) as N2.
      pose proof (F2_length _ _ _ _ _ F) as LF. pose proof (F2_length _ _ _ _ _ P) as LP. pose proof (F2_length _ _ _ _ _ P') as LP'.
      apply (musl_boost l l' l1 l1' X nd nd' nm nm' F); auto; try lia.
      - exact (nl_mass _ _ _ _ _ _ _ N1).
      - exact (proj1 (node_boost dt grav l l' X nd nd' F N1 N2)).
      - intros i a b Ha Hb. destruct (kin_boost i a b Ha Hb) as (K1 & K2 & _). auto.
      - exact (F2_at _ _ _ _ _ Mu j (X, nd) nm (nth_error_combine _ _ _ _ _ _ _ A1 E1) A2).
      - exact (F2_at _ _ _ _ _ Mu' j' (X, nd') nm' (nth_error_combine _ _ _ _ _ _ _ A3 E2) A4).
    Qed.
    Lemma strain_boost : forall i a b, nth_error l1 i = Some a -> nth_error l1' i = Some b -> q_F b = q_F a /\ q_tau b = q_tau a /\ q_h b = q_h a.
    Proof.
      intros i a b Ha Hb. destruct (at_l i a b Ha Hb) as (q & q' & Hq & B & Pq & Pq'). destruct h_seen as ((Lh & Lh') & Vh).
      eapply (twin_F svd uabs p Hdx axes axes GO GO U dt l l' g g' h h' q q' a b); eauto using same_items_refl.
    Qed.
  End Run.
End Galilei.
