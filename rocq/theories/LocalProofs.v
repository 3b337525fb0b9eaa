(** * LocalProofs: a time step around one particle. *)
From Coq Require Import Reals ZArith Lra Lia List Bool Permutation.
From Coquelicot Require Import Coquelicot.
From Verif Require Import Num NumR Tools Lin Types Remesh Objects Transfer Rma Plastic Pbc Step Save Spec SpecStep SpecMech SpecMaterial SpecMpm SpecLocal
  LinProofs ResProofs KernelProofs GridProofs StencilProofs GradProofs PloopProofs StepProofs StepMech StepField PlasticModels MpmProofs BalanceProofs TwinProofs GalileiProofs.
Import ListNotations.
Local Open Scope R_scope.

Section Local.
  Context {G : Geo R} {GL : GeoLaws G}.
  Variable svd : TM -> TM * TV * TM.
  Variable uabs : R -> R.
  Variable p : Par R.
  Hypothesis Hdx : 0 < dx p.
  Hypothesis Hm : 0 < particle_mass p.
  Notation rad := (kernel_radius p).

  Lemma rad_pos : 0 < rad.
  Proof. unfold kernel_radius. destruct (spline p); lra. Qed.
  Lemma N_outside : forall u, rad <= Rabs u -> N (spline p) (u / dx p) = 0.
  Proof.
    intros u H. apply N_support. unfold Rdiv. rewrite Rabs_mult, (Rabs_pos_eq (/ dx p)) by (left; now apply Rinv_0_lt_compat).
    unfold kernel_radius in H. apply Rmult_le_reg_r with (dx p); auto. rewrite Rmult_assoc, Rinv_l, Rmult_1_r by lra. exact H.
  Qed.
  Lemma fold_zero : forall (f : nat -> R) l k, In k l -> f k = 0 -> fold_right Rmult 1 (map f l) = 0.
  Proof. intros f l k. induction l as [|a l IH]; intros Hi Hf; [destruct Hi|]. cbn [map fold_right]. destruct Hi as [->|Hi]; [rewrite Hf; ring|rewrite IH by auto; ring]. Qed.
  Lemma weight_outside : forall X y k, (k < dim)%nat -> rad <= Rabs (vget y k - vget X k) -> weight p X y = 0.
  Proof. intros X y k Hk H. unfold weight. apply (fold_zero (fun k => N (spline p) ((vget y k - vget X k) / dx p)) (seq 0 dim) k); [apply in_seq; lia|]. now apply N_outside. Qed.
  Lemma weight_inside : forall X x, 0 < weight p X x -> forall k, (k < dim)%nat -> Rabs (vget x k - vget X k) < rad.
  Proof. intros X x H k Hk. destruct (Rlt_dec (Rabs (vget x k - vget X k)) rad); auto. rewrite (weight_outside X x k Hk) in H; lra. Qed.
  Lemma dweight_outside : forall X y k j, (k < dim)%nat -> (j < dim)%nat -> rad < Rabs (vget y k - vget X k) -> dweight p X y j = 0.
  Proof.
    intros X y k j Hk Hj H. unfold dweight. rewrite (Derive_ext_loc _ (fun _ => 0)); [apply Derive_const|].
    set (e := Rabs (vget y k - vget X k) - rad). assert (He : 0 < e) by (unfold e; lra). exists (mkposreal e He). intros t Ht.
    apply (weight_outside X _ k Hk). rewrite vget_set by auto. destruct (Nat.eqb_spec j k) as [->|Hjk]; [|rewrite ?(proj2 (Nat.eqb_neq _ _)) by auto; lra].
    rewrite ?Nat.eqb_refl. unfold ball in Ht. cbn in Ht. unfold AbsRing_ball, abs, minus, plus, opp in Ht. cbn in Ht.
    assert (T : Rabs (vget y k - vget X k) <= Rabs (t + - vget y k) + Rabs (t - vget X k)).
    { replace (vget y k - vget X k) with (- (t + - vget y k) + (t - vget X k)) by ring. rewrite <- (Rabs_Ropp (t + - vget y k)). apply Rabs_triang. }
    unfold e in Ht. lra.
  Qed.

  (** What a node seen from [x] gathers. *)
  Lemma beyond_node : forall x X y, beyond (2 * rad) x y -> 0 < weight p X x -> exists k, (k < dim)%nat /\ rad < Rabs (vget y k - vget X k).
  Proof.
    intros x X y (k & Hk & H) Hw. exists k. split; auto. pose proof (weight_inside X x Hw k Hk) as I.
    assert (T : Rabs (vget y k - vget x k) <= Rabs (vget y k - vget X k) + Rabs (vget x k - vget X k)).
    { replace (vget y k - vget x k) with ((vget y k - vget X k) + - (vget x k - vget X k)) by ring. rewrite <- (Rabs_Ropp (vget x k - vget X k)). apply Rabs_triang. }
    lra.
  Qed.
  Lemma sum_around : forall x l l' (f : P1 R -> R), same_around (2 * rad) x l l' -> (forall q, beyond (2 * rad) x (q_x q) -> f q = 0) -> Rsum f l' = Rsum f l.
  Proof.
    intros x l l' f (near & far & far' & P & P' & B) Hf. rewrite (Rsum_perm f _ _ P), (Rsum_perm f _ _ P'), !Rsum_app.
    rewrite (Rsum_zero f far), (Rsum_zero f far'); auto; intros q Hq; apply Hf, B, in_or_app; auto.
  Qed.
  Section Node.
    Variables (x X : TV) (l l' : list (P1 R)).
    Hypothesis S : same_around (2 * rad) x l l'.
    Hypothesis Hw : 0 < weight p X x.
    Lemma far_weight : forall q, beyond (2 * rad) x (q_x q) -> weight p X (q_x q) = 0.
    Proof. intros q B. destruct (beyond_node x X _ B Hw) as (k & Hk & H). apply (weight_outside X _ k Hk). lra. Qed.
    Lemma mass_around : Rsum (fun q => weight p X (q_x q)) l' = Rsum (fun q => weight p X (q_x q)) l.
    Proof. apply (sum_around x l l' _ S). exact far_weight. Qed.
    Lemma weighted_around : forall h : P1 R -> R, Rsum (fun q => weight p X (q_x q) * h q) l' = Rsum (fun q => weight p X (q_x q) * h q) l.
    Proof. intros h. apply (sum_around x l l' _ S). intros q B. rewrite (far_weight q B). ring. Qed.
    Lemma projected_around : forall k, projected p l' X k = projected p l X k.
    Proof. intros k. unfold projected. now rewrite mass_around, weighted_around. Qed.
    Lemma internal_around : forall k, (k < dim)%nat -> internal p l' X k = internal p l X k.
    Proof.
      intros k Hk. unfold internal. f_equal. apply (sum_around x l l' _ S). intros q B. destruct (beyond_node x X _ B Hw) as (i & Hi & H).
      unfold sum_axes. apply Rsum_zero. intros j Hj. apply in_seq in Hj. rewrite (dweight_outside X (q_x q) i j Hi) by (auto; lia). ring.
    Qed.
    Lemma friction_unused : use_mibf p = false -> forall pls dt mu mu' Y v, boundaryCollision p pls dt mu Y v = boundaryCollision p pls dt mu' Y v.
    Proof. intros Hu pls dt mu mu' Y v. unfold boundaryCollision, objects_loop, plates_loop, plate_collide. rewrite Hu. reflexivity. Qed.
    Lemma node_around : forall pls dt grav nd nd', 0 < Rsum (fun q => weight p X (q_x q)) l -> node_law p pls dt grav l X nd -> node_law p pls dt grav l' X nd' ->
      nd_m nd' = nd_m nd /\ nd_v nd' = nd_v nd.
    Proof.
      intros pls dt grav nd nd' Hs [M1 _ N1] [M2 _ N2]. rewrite mass_around, <- M1 in M2. split; auto.
      assert (Hp : 0 < nd_m nd) by (rewrite M1; now apply Rmult_lt_0_compat). rewrite M2 in N2. destruct (N1 Hp) as (f1 & mu1 & A1 & B1 & C1). destruct (N2 Hp) as (f2 & mu2 & A2 & B2 & C2).
      assert (f2 = f1). { apply vext. intros k Hk. specialize (A1 k Hk). specialize (A2 k Hk). rewrite internal_around, projected_around in A2 by auto. apply Rmult_eq_reg_l with (nd_m nd); [|lra]. lra. }
      subst f2. assert (E : boundaryCollision p pls dt mu2 X f1 = boundaryCollision p pls dt mu1 X f1).
      { destruct (use_mibf p) eqn:Eu; [|now apply friction_unused]. rewrite (B1 eq_refl), (B2 eq_refl), mass_around, weighted_around. reflexivity. }
      rewrite E, C1 in C2. apply Ok_inj in C2. auto.
    Qed.
  End Node.

  Section Run.
    Variables (dt : R) (grav : TV) (pls : list (Plate R)) (axes axes' : list (Axis R)) (l l' l1 l1' : list (P1 R)) (g g' h h' : list (Node R)).
    Hypothesis GO : GridOk p axes.
    Hypothesis GO' : GridOk p axes'.
    Hypothesis Al : one_lattice p axes axes'.
    Notation pos := (positions axes).
    Notation pos' := (positions axes').
    Hypothesis Cov : forall q, In q l -> Covered p axes (q_x q).
    Hypothesis Off : spline p = Deg1 -> forall q, In q l -> off_lines p axes (q_x q).
    Hypothesis Cov' : forall q, In q l' -> Covered p axes' (q_x q).
    Hypothesis Off' : spline p = Deg1 -> forall q, In q l' -> off_lines p axes' (q_x q).
    Hypothesis N : Forall2 (node_law p pls dt grav l) pos g.
    Hypothesis N' : Forall2 (node_law p pls dt grav l') pos' g'.
    Hypothesis Mu : if use_musl p then Forall2 (musl_law p (combine l l1)) (combine pos g) h else h = g.
    Hypothesis Mu' : if use_musl p then Forall2 (musl_law p (combine l' l1')) (combine pos' g') h' else h' = g'.
    Hypothesis P : Forall2 (particle_law svd uabs p dt l (combine pos g) (combine pos h)) l l1.
    Hypothesis P' : Forall2 (particle_law svd uabs p dt l' (combine pos' g') (combine pos' h')) l' l1'.
    Lemma Lg2 : length g = length pos. Proof. symmetry. exact (F2_length _ _ _ _ _ N). Qed.
    Lemma Lg2' : length g' = length pos'. Proof. symmetry. exact (F2_length _ _ _ _ _ N'). Qed.
    Lemma self : forall q, boosted vzero q q.
    Proof. intros q. repeat split. apply vext. intros k Hk. rewrite vget_add, vget_zero by auto. numR. ring. Qed.
    Lemma items_same : forall x, same_items p axes axes' x.
    Proof. intros x. apply aligned_items; auto; [exact (go_dim _ _ GO)|exact (go_dim _ _ GO')]. Qed.
    Lemma g_same : forall q, In q l -> same_around (2 * rad) (q_x q) l l' -> seen p axes axes' (q_x q) g g' (vel_shift vzero) /\ seen p axes axes' (q_x q) g g' (proj_shift p vzero l l').
    Proof.
      intros q Hq S. split; intros j j' X nd nd' A1 A2 A3 A4 A5; pose proof (seen_mass p l X q Hq A5) as Hs.
      - destruct (node_around (q_x q) X l l' S A5 pls dt grav nd nd' Hs (F2_at _ _ _ _ _ N j X nd A1 A2) (F2_at _ _ _ _ _ N' j' X nd' A3 A4)) as (_ & E).
        intros k Hk. rewrite E, vget_zero by auto. numR. ring.
      - intros k Hk. rewrite (projected_around (q_x q) X l l' S A5), vget_zero by auto. numR. ring.
    Qed.
    Section One.
      Variables (i i' : nat) (q a b : P1 R).
      Hypothesis Ei : nth_error l i = Some q.
      Hypothesis Ei' : nth_error l' i' = Some q.
      Hypothesis Ea : nth_error l1 i = Some a.
      Hypothesis Eb : nth_error l1' i' = Some b.
      Hypothesis S : same_around (2 * rad) (q_x q) l l'.
      Lemma kin_around : (change_pos p = false -> q_x b = q_x a) /\ q_v b = q_v a /\ (flip_ratio p < 0 -> q_B b = q_B a).
      Proof.
        pose proof (nth_error_In _ _ Ei) as Hq. pose proof (nth_error_In _ _ Ei') as Hq'. destruct (g_same q Hq S) as (V & Pj).
        pose proof (F2_at _ _ _ _ _ P i q a Ei Ea) as Pq. pose proof (F2_at _ _ _ _ _ P' i' q b Ei' Eb) as Pq'.
        split; [|split].
        - intros Hc. apply vext. intros k Hk.
          rewrite (twin_x svd uabs p Hdx axes axes' GO GO' vzero dt l l' g g' h h' q q a b Lg2 Lg2' (Cov q Hq) (Cov' q Hq') (items_same _) (self q) Pq Pq' V Hc k Hk), vget_zero by auto. numR. ring.
        - apply vext. intros k Hk.
          rewrite (twin_v svd uabs p Hdx axes axes' GO GO' vzero dt l l' g g' h h' q q a b Lg2 Lg2' (Cov q Hq) (Cov' q Hq') (items_same _) (self q) Pq Pq' V Pj k Hk), vget_zero by auto. numR. ring.
        - exact (twin_B svd uabs p Hdx axes axes' GO GO' vzero dt l l' g g' h h' q q a b Lg2 Lg2' (Cov q Hq) (Cov' q Hq') (items_same _) (self q) Pq Pq' V).
      Qed.
    End One.
    Lemma around_shrink : forall x y, (forall k, (k < dim)%nat -> Rabs (vget y k - vget x k) < 2 * rad) -> same_around (4 * rad) x l l' -> same_around (2 * rad) y l l'.
    Proof.
      intros x y Hy (near & far & far' & A & A' & B). exists near, far, far'. split; auto. split; auto. intros q Hq. destruct (B q Hq) as (k & Hk & H). exists k. split; auto.
      specialize (Hy k Hk). assert (T : Rabs (vget (q_x q) k - vget x k) <= Rabs (vget (q_x q) k - vget y k) + Rabs (vget y k - vget x k)).
      { replace (vget (q_x q) k - vget x k) with ((vget (q_x q) k - vget y k) + (vget y k - vget x k)) by ring. apply Rabs_triang. }
      lra.
    Qed.
    Lemma fst_combine : forall X Y (u : list X) (v : list Y), length u = length v -> map fst (combine u v) = u.
    Proof. intros X Y u. induction u; intros [|y v] L; try discriminate; auto. cbn. f_equal. apply IHu. cbn in L. lia. Qed.
    Lemma pairs_split : forall (u v near far : list (P1 R)), length u = length v -> Permutation u (near ++ far) ->
      exists cn cf, Permutation (combine u v) (cn ++ cf) /\ map fst cn = near /\ map fst cf = far.
    Proof.
      intros u v near far L Hp. assert (Hp' : Permutation (near ++ far) (map fst (combine u v))) by (rewrite fst_combine by auto; now apply Permutation_sym).
      apply Permutation_map_inv in Hp'. destruct Hp' as (c & E & Pc). exists (firstn (length near) c), (skipn (length near) c). rewrite firstn_skipn. split; [exact Pc|].
      rewrite <- firstn_map, <- skipn_map, <- E. rewrite firstn_app, skipn_app, Nat.sub_diag, firstn_all, skipn_all. cbn. rewrite app_nil_r. auto.
    Qed.
    Lemma in_pairs : forall (u v : list (P1 R)) c, In c (combine u v) -> exists i, nth_error u i = Some (fst c) /\ nth_error v i = Some (snd c).
    Proof.
      intros u. induction u as [|x u IH]; intros [|y v] c Hc; try destruct Hc as [<-|Hc]; try destruct Hc. - exists 0%nat. auto. - destruct (IH v c Hc) as (i & A & B). exists (S i). auto.
    Qed.
    Lemma h_same : forall q, In q l -> (use_musl p = false /\ same_around (2 * rad) (q_x q) l l') \/ same_around (4 * rad) (q_x q) l l' ->
      (length h = length pos /\ length h' = length pos') /\ seen p axes axes' (q_x q) h h' (vel_shift vzero).
    Proof.
      intros q Hq S. assert (S2 : same_around (2 * rad) (q_x q) l l').
      { destruct S as [(_ & S)|S]; auto. apply (around_shrink (q_x q)); auto. intros k Hk. replace (vget (q_x q) k - vget (q_x q) k) with 0 by ring. rewrite Rabs_R0. pose proof rad_pos. lra. }
      destruct (use_musl p) eqn:Em; [|rewrite Mu, Mu'; split; [exact (Logic.conj Lg2 Lg2')|now apply g_same]].
      destruct S as [(? & _)|S4]; [discriminate|].
      pose proof (F2_length _ _ _ _ _ Mu) as Lh. pose proof (F2_length _ _ _ _ _ Mu') as Lh'. rewrite combine_length in Lh, Lh'. pose proof Lg2. pose proof Lg2'. split; [lia|].
      intros j j' X nm nm' A1 A2 A3 A4 A5. pose proof (seen_mass p l X q Hq A5) as Hs.
      assert (Lj : (j < length pos)%nat) by (apply nth_error_Some; congruence). assert (Lj' : (j' < length pos')%nat) by (apply nth_error_Some; congruence).
      destruct (nth_error g j) as [nd|] eqn:E1; [|apply nth_error_None in E1; lia]. destruct (nth_error g' j') as [nd'|] eqn:E2; [|apply nth_error_None in E2; lia].
      pose proof (F2_at _ _ _ _ _ N j X nd A1 E1) as N1. pose proof (F2_at _ _ _ _ _ N' j' X nd' A3 E2) as N2.
      destruct (node_around (q_x q) X l l' S2 A5 pls dt grav nd nd' Hs N1 N2) as (M2 & _). pose proof (nl_mass _ _ _ _ _ _ _ N1) as M1.
      pose proof (F2_at _ _ _ _ _ Mu j (X, nd) nm (nth_error_combine _ _ _ _ _ _ _ A1 E1) A2) as [K1 _ V1].
      pose proof (F2_at _ _ _ _ _ Mu' j' (X, nd') nm' (nth_error_combine _ _ _ _ _ _ _ A3 E2) A4) as [K2 _ V2]. cbn [fst snd] in *.
      assert (Hp : 0 < nd_m nd) by (rewrite M1; now apply Rmult_lt_0_compat). intros k Hk. rewrite K1 in V1. rewrite K2, M2 in V2. specialize (V1 Hp k Hk). specialize (V2 Hp k Hk).
      rewrite vget_zero by auto. numR. apply Rmult_eq_reg_l with (nd_m nd); [|lra]. rewrite Rplus_0_r, V1, V2. f_equal.
      destruct S4 as (near & far & far' & Pl & Pl' & B). destruct (pairs_split l l1 near far (F2_length _ _ _ _ _ P) Pl) as (cn & cf & Q1 & Q2 & Q3).
      destruct (pairs_split l' l1' near far' (F2_length _ _ _ _ _ P') Pl') as (cn' & cf' & Q1' & Q2' & Q3').
      rewrite (Rsum_perm _ _ _ Q1), (Rsum_perm _ _ _ Q1'), !Rsum_app.
      assert (B2 : forall y, In y (far ++ far') -> beyond (2 * rad) (q_x q) (q_x y)) by (intros y Hy; destruct (B y Hy) as (i & Hi & Hb); exists i; split; auto; pose proof rad_pos; lra).
      assert (Z : forall c ff, map fst c = ff -> (forall y, In y ff -> In y (far ++ far')) -> Rsum (fun qq => weight p X (q_x (fst qq)) * carried p (q_v (snd qq)) (q_B (snd qq)) (q_x (fst qq)) X k) c = 0).
      { intros c ff Ec Hf. apply Rsum_zero. intros qq Hc. rewrite (far_weight (q_x q) X A5); [ring|]. apply B2, Hf. rewrite <- Ec. now apply in_map. }
      rewrite (Z cf far Q3), (Z cf' far' Q3') by (intros; apply in_or_app; auto). f_equal.
      assert (Fc : Forall2 (fun c c' => fst c = fst c') cn cn').
      { clear - Q2 Q2'. revert near cn' Q2 Q2'. induction cn as [|c cn IH]; intros near [|c' cn'] E E'; subst near; try discriminate; constructor; cbn in E'; [congruence|]. apply (IH (map fst cn)); congruence. }
      symmetry. apply (Rsum_F2 _ _ _ _ _ _ _ Fc). intros [y a] [y' b] Hc Hc' Ey. cbn [fst snd] in *. subst y'.
      destruct (Req_dec (weight p X (q_x y)) 0) as [->|Hw]; [ring|]. f_equal. pose proof (w_nonneg p X (q_x y)) as Hn.
      destruct (in_pairs l l1 (y, a)) as (i & I1 & I2); [eapply Permutation_in; [apply Permutation_sym, Q1|apply in_or_app; auto]|].
      destruct (in_pairs l' l1' (y, b)) as (i' & I1' & I2'); [eapply Permutation_in; [apply Permutation_sym, Q1'|apply in_or_app; auto]|]. cbn [fst snd] in *.
      assert (Sy : same_around (2 * rad) (q_x y) l l').
      { apply (around_shrink (q_x q)); [|exists near, far, far'; auto]. intros c Hcc. pose proof (weight_inside X (q_x q) A5 c Hcc) as W1. pose proof (weight_inside X (q_x y) ltac:(lra) c Hcc) as W2.
        assert (T : Rabs (vget (q_x y) c - vget (q_x q) c) <= Rabs (vget (q_x y) c - vget X c) + Rabs (vget (q_x q) c - vget X c)).
        { replace (vget (q_x y) c - vget (q_x q) c) with ((vget (q_x y) c - vget X c) + - (vget (q_x q) c - vget X c)) by ring. rewrite <- (Rabs_Ropp (vget (q_x q) c - vget X c)). apply Rabs_triang. }
        lra. }
      destruct (kin_around i i' y a b I1 I1' I2 I2' Sy) as (_ & Ev & EB). unfold carried. rewrite Ev. destruct (Rlt_dec (flip_ratio p) 0) as [Hf|]; [rewrite (EB Hf)|]; reflexivity.
    Qed.
    Lemma strain_around : forall i i' q a b, nth_error l i = Some q -> nth_error l' i' = Some q -> nth_error l1 i = Some a -> nth_error l1' i' = Some b ->
      (use_musl p = false /\ same_around (2 * rad) (q_x q) l l') \/ same_around (4 * rad) (q_x q) l l' -> q_F b = q_F a /\ q_tau b = q_tau a /\ q_h b = q_h a.
    Proof.
      intros i i' q a b Ei Ei' Ea Eb S. pose proof (nth_error_In _ _ Ei) as Hq. pose proof (nth_error_In _ _ Ei') as Hq'. destruct (h_same q Hq S) as ((Lh & Lh') & Vh).
      pose proof (F2_at _ _ _ _ _ P i q a Ei Ea) as Pq. pose proof (F2_at _ _ _ _ _ P' i' q b Ei' Eb) as Pq'.
      exact (twin_F svd uabs p Hdx axes axes' GO GO' vzero dt l l' g g' h h' q q a b Lh Lh' (Cov q Hq) (Cov' q Hq') (items_same _) (fun E => Off E q Hq) (fun E => Off' E q Hq') (self q) Pq Pq' Vh).
    Qed.
  End Run.
End Local.
