(** * BalanceProofs: angular momentum and kinetic energy of a time step. *)
From Coq Require Import Reals ZArith Lra Lia List Bool Permutation.
From Coquelicot Require Import Derive.
From Verif Require Import Num NumR Tools Lin Types Remesh Objects Transfer Rma Plastic Pbc Step Spec SpecStep SpecMech SpecMaterial SpecMpm SpecBalance
  LinProofs ResProofs KernelProofs GridProofs StencilProofs IndexProofs GradProofs PloopProofs ObjectProofs StepProofs StepMech StepField MpmProofs.
Import ListNotations.
Local Open Scope R_scope.

Lemma Rsum_fst : forall X Y (f : X -> R) (l : list X) (l' : list Y), length l = length l' -> Rsum (fun Xn => f (fst Xn)) (combine l l') = Rsum f l.
Proof. intros X Y f l. induction l as [|x l IH]; intros [|y l'] L; try discriminate; auto. cbn [combine Rsum fst]. now rewrite IH by (cbn in L; lia). Qed.

(** ** Moments of the weights over the whole grid *)
Section Moments.
  Context {G : Geo R} {GL : GeoLaws G}.
  Variable p : Par R.
  Hypothesis Hdx : 0 < dx p.
  Variable axes : list (Axis R).
  Hypothesis GO : GridOk p axes.
  Variable x : TV.
  Hypothesis C : Covered p axes x.
  Hypothesis Ol : spline p = Deg1 -> off_lines p axes x.
  Notation pos := (positions axes).

  Lemma pos_len : Z.of_nat (length (positions axes)) = prodlen axes.
  Proof. rewrite (positions_spec p) by auto. rewrite map_length, seq_length. apply Z2Nat.id. pose proof (prodlen_pos p _ GO). lia. Qed.
  Lemma sum_w : forall phi : TV -> R, Rsum (fun it => it_w it * phi (it_x it)) (items_of p axes x) = Rsum (fun X => weight p X x * phi X) pos.
  Proof.
    intros phi. pose proof pos_len as L. set (nodes := repeat (zero_node (A := R)) (length pos)).
    rewrite (gather_w p Hdx axes x nodes (fun X _ => phi X)); auto; [|unfold nodes; now rewrite repeat_length].
    unfold interpolated. apply (Rsum_fst _ _ (fun X => weight p X x * phi X)). unfold nodes. now rewrite repeat_length.
  Qed.
  Lemma sum_d : forall (phi : TV -> R) k, (k < dim)%nat -> Rsum (fun it => vget (it_g it) k * phi (it_x it)) (items_of p axes x) = Rsum (fun X => dweight p X x k * phi X) pos.
  Proof.
    intros phi k Hk. pose proof pos_len as L. set (nodes := repeat (zero_node (A := R)) (length pos)).
    rewrite (gather_d p Hdx axes x nodes (fun X _ => phi X)); auto; [|unfold nodes; now rewrite repeat_length].
    apply (Rsum_fst _ _ (fun X => dweight p X x k * phi X)). unfold nodes. now rewrite repeat_length.
  Qed.
  Let S : SL p axes x (items_of p axes x).
  Proof. exact (proj2 (proj2 (stencil_cov p Hdx axes x GO C))). Qed.
  Lemma m_1 : Rsum (fun X => weight p X x) pos = 1.
  Proof.
    rewrite <- (sl_1 _ _ _ _ S). rewrite (Rsum_ext (fun it => it_w it) (fun it => it_w it * 1)) by (intros; ring). rewrite (sum_w (fun _ => 1)). apply Rsum_ext. intros; ring.
  Qed.
  Lemma m_x : forall k, (k < dim)%nat -> Rsum (fun X => weight p X x * (vget X k - vget x k)) pos = 0.
  Proof. intros k Hk. rewrite <- (sl_x _ _ _ _ S k Hk). symmetry. apply (sum_w (fun X => vget X k - vget x k)). Qed.
  Lemma m_xx : spline p <> Deg1 -> forall k j, (k < dim)%nat -> (j < dim)%nat ->
    Rsum (fun X => weight p X x * ((vget X k - vget x k) * (vget X j - vget x j))) pos = if Nat.eqb k j then / apic_scale p else 0.
  Proof.
    intros Hs k j Hk Hj. rewrite <- (apic_scale_eq p) by auto. rewrite <- (sl_xx _ _ _ _ S Hs k j Hk Hj). rewrite <- (sum_w (fun X => (vget X k - vget x k) * (vget X j - vget x j))).
    apply Rsum_ext. intros; ring.
  Qed.
  Lemma m_d : forall k, (k < dim)%nat -> Rsum (fun X => dweight p X x k) pos = 0.
  Proof.
    intros k Hk. rewrite <- (sl_g _ _ _ _ S Ol k Hk). rewrite (Rsum_ext (fun it => vget (it_g it) k) (fun it => vget (it_g it) k * 1)) by (intros; ring).
    rewrite (sum_d (fun _ => 1)) by auto. apply Rsum_ext. intros; ring.
  Qed.
  Lemma m_dx : forall k j, (k < dim)%nat -> (j < dim)%nat -> Rsum (fun X => dweight p X x k * (vget X j - vget x j)) pos = if Nat.eqb k j then 1 else 0.
  Proof. intros k j Hk Hj. rewrite <- (sl_gx _ _ _ _ S Ol k j Hk Hj). symmetry. now apply (sum_d (fun X => vget X j - vget x j)). Qed.
  Lemma m_d_full : forall k j, (k < dim)%nat -> (j < dim)%nat -> Rsum (fun X => dweight p X x k * vget X j) pos = if Nat.eqb k j then 1 else 0.
  Proof.
    intros k j Hk Hj. rewrite <- (m_dx k j Hk Hj). rewrite (Rsum_ext _ (fun X => dweight p X x k * (vget X j - vget x j) + vget x j * dweight p X x k)) by (intros; ring).
    rewrite Rsum_plus, Rsum_scal, m_d by auto. ring.
  Qed.
  Lemma m_x_full : forall k, (k < dim)%nat -> Rsum (fun X => weight p X x * vget X k) pos = vget x k.
  Proof.
    intros k Hk. rewrite (Rsum_ext _ (fun X => weight p X x * (vget X k - vget x k) + vget x k * weight p X x)) by (intros; ring).
    rewrite Rsum_plus, Rsum_scal, m_x, m_1 by auto. ring.
  Qed.
End Moments.

(** ** Sums over all particles and all nodes *)
Section Grid.
  Context {G : Geo R} {GL : GeoLaws G}.
  Variable p : Par R.
  Hypothesis Hdx : 0 < dx p.
  Hypothesis Hm : 0 < particle_mass p.
  Variable axes : list (Axis R).
  Hypothesis GO : GridOk p axes.
  Variable l : list (P1 R).
  Hypothesis Cov : forall q, In q l -> Covered p axes (q_x q).
  Hypothesis Ol : spline p = Deg1 -> forall q, In q l -> off_lines p axes (q_x q).
  Notation pos := (positions axes).

  Lemma w_nonneg : forall X x, 0 <= weight p X x.
  Proof. intros X x. unfold weight. induction (seq 0 dim) as [|k r IH]; cbn [map fold_right]; [lra|]. apply Rmult_le_pos; [apply N_nonneg|exact IH]. Qed.
  Lemma node_pos_co : forall j k a, nth_error axes k = Some a -> exists z : Z, vget (node_pos p axes j) k = ax_c a + IZR z * dx p.
  Proof.
    intros j k a Ea. destruct (axes_cases axes (go_dim _ _ GO)) as [(D & ax & ay & ->)|(D & ax & ay & az & ->)].
    - apply nth2 in Ea. unfold node_pos, co. destruct Ea as [(-> & ->)|(-> & ->)]; rewrite !vget_set by lia; cbn [Nat.eqb]; eexists; rewrite INR_IZR_INZ; reflexivity.
    - apply nth3 in Ea. unfold node_pos, co. destruct Ea as [(-> & ->)|[(-> & ->)|(-> & ->)]]; rewrite !vget_set by lia; cbn [Nat.eqb]; eexists; rewrite INR_IZR_INZ; reflexivity.
  Qed.
  Lemma apart_on_grid : forall q X, spline p = Deg1 -> In q l -> In X pos -> apart p X (q_x q).
  Proof.
    intros q X Hs Hq HX k n Hk E. rewrite (positions_spec p) in HX by auto. apply in_map_iff in HX. destruct HX as (j & <- & Hj). apply in_seq in Hj.
    destruct (nth_error axes k) as [a|] eqn:Ea; [|apply nth_error_None in Ea; rewrite (go_dim _ _ GO) in Ea; lia].
    destruct (node_pos_co j k a Ea) as (z & Ez). rewrite Ez in E. apply (Ol Hs q Hq k a Ea (z + n)%Z). rewrite plus_IZR. lra.
  Qed.
  Lemma d_zero : forall q X k, In q l -> In X pos -> (k < dim)%nat -> weight p X (q_x q) = 0 -> dweight p X (q_x q) k = 0.
  Proof.
    intros q X k Hq HX Hk W. pose proof (fun Hs => apart_on_grid q X Hs Hq HX) as A.
    destruct gl_dim as [D|D].
    - destruct (dweight2 p Hdx X (q_x q) D A) as (E0 & E1). rewrite (weight2 p _ _ D) in W. apply Rmult_integral in W.
      assert (k = 0 \/ k = 1)%nat as [-> | ->] by lia; [rewrite E0|rewrite E1]; destruct W as [W|W]; first [rewrite W; ring | rewrite (N_zero_dN_zero _ _ W); ring].
    - destruct (dweight3 p Hdx X (q_x q) D A) as (E0 & E1 & E2). rewrite (weight3 p _ _ D) in W. apply Rmult_integral in W.
      destruct W as [W|W]; [apply Rmult_integral in W|]; (assert (k = 0 \/ k = 1 \/ k = 2)%nat as [-> |[-> | ->]] by lia); [rewrite E0|rewrite E1|rewrite E2|rewrite E0|rewrite E1|rewrite E2];
        try (destruct W as [W|W]); first [rewrite W; ring | rewrite (N_zero_dN_zero _ _ W); ring].
  Qed.
  Lemma empty_node : forall X, In X pos -> node_mass p l X = 0 -> (forall q, In q l -> weight p X (q_x q) = 0) /\ forall k, (k < dim)%nat -> internal p l X k = 0.
  Proof.
    intros X HX M. assert (Z : Rsum (fun q => weight p X (q_x q)) l = 0) by (unfold node_mass in M; apply Rmult_integral in M; destruct M; lra).
    assert (W : forall q, In q l -> weight p X (q_x q) = 0) by (apply (Rsum_nonneg_0 (fun q => weight p X (q_x q))); auto; intros; apply w_nonneg).
    split; auto. intros k Hk. unfold internal. rewrite Rsum_zero; [ring|]. intros q Hq. rewrite (sum_axes_sumd G GL). apply sumd_zero. intros j Hj. rewrite (d_zero q X j) by auto. ring.
  Qed.
  (** Momentum brought to the node at [X]. *)
  Definition brought (X : TV) (k : nat) : R := particle_mass p * Rsum (fun q => weight p X (q_x q) * carried p (q_v q) (q_B q) (q_x q) X k) l.
  Lemma brought_projected : forall X k, In X pos -> node_mass p l X * projected p l X k = brought X k.
  Proof.
    intros X k HX. unfold projected, brought. destruct (Req_dec (node_mass p l X) 0) as [Z|Z].
    - rewrite Z. rewrite (Rsum_zero (fun q => weight p X (q_x q) * _)); [ring|]. intros q Hq. rewrite (proj1 (empty_node X HX Z)) by auto. ring.
    - unfold node_mass in *. field. intros Z'. apply Z. rewrite Z'. ring.
  Qed.
  Lemma mass_nonneg : forall X, 0 <= node_mass p l X.
  Proof. intros X. unfold node_mass. apply Rmult_le_pos; [lra|]. apply Rsum_nonneg. intros. apply w_nonneg. Qed.

  (** Angular momentum brought to the grid, torque of the internal forces and of gravity. *)
  Lemma brought_angular : flip_ratio p < 0 -> spline p <> Deg1 -> forall i j, (i < dim)%nat -> (j < dim)%nat ->
    Rsum (fun X => vget X i * brought X j - vget X j * brought X i) pos = angular_momentum p l i j.
  Proof.
    intros Hf Hs i j Hi Hj.
    assert (As : apic_scale p <> 0).
    { unfold apic_scale. destruct (spline p); [contradiction|apply Rgt_not_eq, Rdiv_lt_0_compat; nra..]. }
    unfold angular_momentum, brought.
    rewrite (Rsum_ext _ (fun X => particle_mass p * Rsum (fun q => weight p X (q_x q) * (vget X i * carried p (q_v q) (q_B q) (q_x q) X j - vget X j * carried p (q_v q) (q_B q) (q_x q) X i)) l)).
    2:{ intros X _. rewrite !(Rmult_comm (vget X _)), !Rmult_assoc, <- Rmult_minus_distr_l. f_equal. rewrite <- !Rsum_scalr, <- Rsum_minus. apply Rsum_ext. intros; ring. }
    rewrite Rsum_scal. f_equal. rewrite Rsum_swap. apply Rsum_ext. intros q Hq. specialize (Cov q Hq). set (x := q_x q) in *. set (v := q_v q). set (B := q_B q).
    assert (K : forall a b, (a < dim)%nat -> (b < dim)%nat -> Rsum (fun X => weight p X x * (vget X a * carried p v B x X b)) pos = vget x a * vget v b + mget B b a).
    { intros a b Ha Hb. unfold carried. destruct (Rlt_dec (flip_ratio p) 0); [|contradiction].
      rewrite (Rsum_ext _ (fun X => vget v b * (weight p X x * vget X a) + apic_scale p * (sum_axes (fun k => mget B b k * (weight p X x * ((vget X a - vget x a) * (vget X k - vget x k)))) + vget x a * sum_axes (fun k => mget B b k * (weight p X x * (vget X k - vget x k)))))).
      2:{ intros X _. rewrite !(sum_axes_sumd G GL). assert (Q : sumd (fun k => mget B b k * (weight p X x * ((vget X a - vget x a) * (vget X k - vget x k)))) + vget x a * sumd (fun k => mget B b k * (weight p X x * (vget X k - vget x k)))
          = weight p X x * vget X a * sumd (fun k => mget B b k * (vget X k - vget x k))).
        { rewrite <- !sumd_scal, <- sumd_plus. apply sumd_ext. intros; ring. }
        rewrite Q. ring. }
      rewrite Rsum_plus, Rsum_scal, (m_x_full p Hdx axes GO x Cov) by auto. rewrite Rsum_scal, Rsum_plus.
      rewrite (Rsum_ext (fun X => sum_axes (fun k => mget B b k * (weight p X x * ((vget X a - vget x a) * (vget X k - vget x k))))) (fun X => sumd (fun k => mget B b k * (weight p X x * ((vget X a - vget x a) * (vget X k - vget x k)))))) by (intros; apply (sum_axes_sumd G GL)).
      rewrite <- (sumd_Rsum_swap _ (fun k X => mget B b k * (weight p X x * ((vget X a - vget x a) * (vget X k - vget x k))))).
      rewrite (sumd_ext _ (fun k => if Nat.eqb a k then mget B b k * / apic_scale p else 0)).
      2:{ intros k Hk. rewrite Rsum_scal, (m_xx p Hdx axes GO x Cov Hs) by auto. destruct (Nat.eqb a k); ring. }
      rewrite sumd_pick by auto. rewrite Rsum_scal.
      rewrite (Rsum_ext (fun X => sum_axes (fun k => mget B b k * (weight p X x * (vget X k - vget x k)))) (fun X => sumd (fun k => mget B b k * (weight p X x * (vget X k - vget x k))))) by (intros; apply (sum_axes_sumd G GL)).
      rewrite <- (sumd_Rsum_swap _ (fun k X => mget B b k * (weight p X x * (vget X k - vget x k)))).
      rewrite (sumd_zero (fun k => Rsum _ _)). 2:{ intros k Hk. rewrite Rsum_scal, (m_x p Hdx axes GO x Cov) by auto. ring. }
      field. exact As. }
    rewrite (Rsum_ext _ (fun X => weight p X x * (vget X i * carried p v B x X j) - weight p X x * (vget X j * carried p v B x X i))) by (intros; ring).
    rewrite Rsum_minus, !K by auto. unfold wedge. ring.
  Qed.
  Lemma internal_torque : symmetric_stress l -> forall i j, (i < dim)%nat -> (j < dim)%nat ->
    Rsum (fun X => vget X i * internal p l X j - vget X j * internal p l X i) pos = 0.
  Proof.
    intros Sy i j Hi Hj.
    assert (K : forall a b, (a < dim)%nat -> (b < dim)%nat -> Rsum (fun X => vget X a * internal p l X b) pos = - particle_volume p * Rsum (fun q => mget (q_tau q) b a) l).
    { intros a b Ha Hb. unfold internal.
      rewrite (Rsum_ext _ (fun X => - particle_volume p * Rsum (fun q => sumd (fun k => mget (q_tau q) b k * (dweight p X (q_x q) k * vget X a))) l)).
      2:{ intros X _. rewrite (Rmult_comm (vget X a)), Rmult_assoc. f_equal. rewrite <- Rsum_scalr. apply Rsum_ext. intros q _. rewrite (sum_axes_sumd G GL), <- sumd_scalr. apply sumd_ext. intros; ring. }
      rewrite Rsum_scal. f_equal. rewrite Rsum_swap. apply Rsum_ext. intros q Hq. rewrite <- (sumd_Rsum_swap _ (fun k X => mget (q_tau q) b k * (dweight p X (q_x q) k * vget X a))).
      rewrite (sumd_ext _ (fun k => if Nat.eqb a k then mget (q_tau q) b k else 0)); [now apply sumd_pick|].
      intros k Hk. rewrite Rsum_scal, (m_d_full p Hdx axes GO (q_x q) (Cov q Hq) (fun Hs => Ol Hs q Hq)) by auto. rewrite (Nat.eqb_sym k a). destruct (Nat.eqb a k); ring. }
    rewrite Rsum_minus, !K by auto. rewrite (Rsum_ext (fun q => mget (q_tau q) j i) (fun q => mget (q_tau q) i j)); [ring|]. intros q Hq. now apply Sy.
  Qed.
  Lemma mass_moment : forall k, (k < dim)%nat -> Rsum (fun X => node_mass p l X * vget X k) pos = particle_mass p * Rsum (fun q => vget (q_x q) k) l.
  Proof.
    intros k Hk. unfold node_mass. rewrite (Rsum_ext _ (fun X => particle_mass p * Rsum (fun q => weight p X (q_x q) * vget X k) l)).
    2:{ intros X _. rewrite Rsum_scalr. ring. }
    rewrite Rsum_scal, Rsum_swap. f_equal. apply Rsum_ext. intros q Hq. now apply (m_x_full p Hdx axes GO (q_x q) (Cov q Hq)).
  Qed.
End Grid.

(** ** Kinetic energy *)
Section Fit.
  Context {G : Geo R} {GL : GeoLaws G}.
  (** Mean and best affine fit of [u] with weights [w] have no more energy than [u]. *)
  Lemma fit_energy : forall Y (L : list Y) (w u : Y -> R) (r : nat -> Y -> R) (s : R), (forall y, In y L -> 0 <= w y) -> Rsum w L = 1 ->
    (forall k, (k < dim)%nat -> Rsum (fun y => w y * r k y) L = 0) ->
    (forall k j, (k < dim)%nat -> (j < dim)%nat -> s * (s * Rsum (fun y => w y * (r k y * r j y)) L) = if Nat.eqb k j then s else 0) ->
    Rsum (fun y => w y * u y) L * Rsum (fun y => w y * u y) L + s * sumd (fun k => Rsum (fun y => w y * (u y * r k y)) L * Rsum (fun y => w y * (u y * r k y)) L)
      <= Rsum (fun y => w y * (u y * u y)) L.
  Proof.
    intros Y L w u r s Hw W1 W2 W3. set (a := Rsum (fun y => w y * u y) L). set (b := fun k => Rsum (fun y => w y * (u y * r k y)) L).
    change (a * a + s * sumd (fun k => b k * b k) <= Rsum (fun y => w y * (u y * u y)) L). set (bb := sumd (fun k => b k * b k)).
    set (e := fun y => sumd (fun k => b k * r k y)).
    assert (P : 0 <= Rsum (fun y => w y * ((u y - a - s * e y) * (u y - a - s * e y))) L).
    { apply Rsum_nonneg. intros y Hy. apply Rmult_le_pos; [auto|]. apply Rle_0_sqr. }
    assert (E1 : Rsum (fun y => w y * e y) L = 0).
    { unfold e. rewrite (Rsum_ext _ (fun y => sumd (fun k => b k * (w y * r k y)))). 2:{ intros y _. rewrite <- sumd_scal. apply sumd_ext. intros; ring. }
      rewrite <- (sumd_Rsum_swap _ (fun k y => b k * (w y * r k y))). apply sumd_zero. intros k Hk. rewrite Rsum_scal, W2 by auto. ring. }
    assert (E2 : Rsum (fun y => w y * (u y * e y)) L = bb).
    { unfold e, bb. rewrite (Rsum_ext _ (fun y => sumd (fun k => b k * (w y * (u y * r k y))))). 2:{ intros y _. rewrite <- Rmult_assoc, <- sumd_scal. apply sumd_ext. intros; ring. }
      rewrite <- (sumd_Rsum_swap _ (fun k y => b k * (w y * (u y * r k y)))). apply sumd_ext. intros k Hk. rewrite Rsum_scal. reflexivity. }
    assert (E3 : s * (s * Rsum (fun y => w y * (e y * e y)) L) = s * bb).
    { unfold e, bb. rewrite (Rsum_ext _ (fun y => sumd (fun k => sumd (fun j => b k * b j * (w y * (r k y * r j y)))))).
      2:{ intros y _. rewrite <- sumd_scalr, <- sumd_scal. apply sumd_ext. intros k _. rewrite <- !sumd_scal. apply sumd_ext. intros; ring. }
      rewrite <- (sumd_Rsum_swap _ (fun k y => sumd (fun j => b k * b j * (w y * (r k y * r j y))))). rewrite <- !sumd_scal. apply sumd_ext. intros k Hk.
      rewrite <- (sumd_Rsum_swap _ (fun j y => b k * b j * (w y * (r k y * r j y)))). rewrite <- !sumd_scal.
      rewrite (sumd_ext _ (fun j => if Nat.eqb k j then s * (b k * b j) else 0)); [now rewrite sumd_pick by auto|].
      intros j Hj. rewrite Rsum_scal. transitivity (b k * b j * (s * (s * Rsum (fun y => w y * (r k y * r j y)) L))); [ring|]. rewrite W3 by auto. destruct (Nat.eqb k j); ring. }
    rewrite (Rsum_ext _ (fun y => w y * (u y * u y) + (- 2 * a) * (w y * u y) + (- 2 * s) * (w y * (u y * e y)) + a * a * w y + (2 * a * s) * (w y * e y) + s * s * (w y * (e y * e y)))) in P by (intros; ring).
    rewrite !Rsum_plus, !Rsum_scal in P. fold a in P. rewrite E1, E2, W1 in P.
    assert (s * s * Rsum (fun y => w y * (e y * e y)) L = s * bb) by (rewrite <- E3; ring). nra.
  Qed.
  Lemma jensen : forall Y (L : list Y) (w c : Y -> R), (forall y, In y L -> 0 <= w y) -> 0 < Rsum w L ->
    Rsum w L * (Rsum (fun y => w y * c y) L / Rsum w L * (Rsum (fun y => w y * c y) L / Rsum w L)) <= Rsum (fun y => w y * (c y * c y)) L.
  Proof.
    intros Y L w c Hw W. set (M := Rsum w L) in *. set (a := Rsum (fun y => w y * c y) L / M).
    assert (Ea : Rsum (fun y => w y * c y) L = a * M) by (unfold a; field; lra).
    assert (P : 0 <= Rsum (fun y => w y * ((c y - a) * (c y - a))) L) by (apply Rsum_nonneg; intros y Hy; apply Rmult_le_pos; [auto|]; apply Rle_0_sqr).
    rewrite (Rsum_ext _ (fun y => w y * (c y * c y) + (- 2 * a) * (w y * c y) + a * a * w y)) in P by (intros; ring).
    rewrite !Rsum_plus, !Rsum_scal, Ea in P. fold M in P. nra.
  Qed.
End Fit.

Section Energy.
  Context {G : Geo R} {GL : GeoLaws G}.
  Variable p : Par R.
  Hypothesis Hdx : 0 < dx p.
  Hypothesis Hm : 0 < particle_mass p.
  Variable axes : list (Axis R).
  Hypothesis GO : GridOk p axes.
  Variable l : list (P1 R).
  Hypothesis Cov : forall q, In q l -> Covered p axes (q_x q).
  Hypothesis Ol : spline p = Deg1 -> forall q, In q l -> off_lines p axes (q_x q).
  Notation pos := (positions axes).
  Definition bscale : R := if Rlt_dec (flip_ratio p) 0 then apic_scale p else 0.
  Lemma bscale_nonneg : 0 <= bscale.
  Proof. unfold bscale, apic_scale. destruct (Rlt_dec _ _); [|lra]. destruct (spline p); [lra| |]; apply Rlt_le, Rdiv_lt_0_compat; nra. Qed.
  Lemma bscale_xx : forall q, In q l -> forall k j, (k < dim)%nat -> (j < dim)%nat ->
    bscale * (bscale * Rsum (fun X => weight p X (q_x q) * ((vget X k - vget (q_x q) k) * (vget X j - vget (q_x q) j))) pos) = if Nat.eqb k j then bscale else 0.
  Proof.
    intros q Hq k j Hk Hj. unfold bscale. destruct (Rlt_dec _ _) as [Hf|Hf]; [|destruct (Nat.eqb k j); ring].
    destruct (spline p) eqn:Es; try (rewrite (m_xx p Hdx axes GO (q_x q) (Cov q Hq)) by (auto; congruence); destruct (Nat.eqb k j); [|ring]; field; unfold apic_scale; rewrite Es; apply Rgt_not_eq, Rdiv_lt_0_compat; nra).
    unfold apic_scale; rewrite Es. destruct (Nat.eqb k j); ring.
  Qed.
  Lemma ke_eq : forall l0, kinetic_energy p l0 = particle_mass p / 2 * Rsum (fun q => sumd (fun k => vget (q_v q) k * vget (q_v q) k + bscale * sumd (fun j => mget (q_B q) k j * mget (q_B q) k j))) l0.
  Proof.
    intros l0. unfold kinetic_energy. f_equal. apply Rsum_ext. intros q _. unfold sq. rewrite !(sum_axes_sumd G GL), sumd_plus. f_equal. rewrite sumd_scal. unfold bscale.
    destruct (Rlt_dec _ _); [|ring]. f_equal. apply sumd_ext. intros; apply (sum_axes_sumd G GL).
  Qed.
  Lemma carried_eq' : forall v B x X k, carried p v B x X k = vget v k + bscale * sumd (fun j => mget B k j * (vget X j - vget x j)).
  Proof. intros. unfold carried, bscale. rewrite (sum_axes_sumd G GL). destruct (Rlt_dec _ _); ring. Qed.
  Lemma carried_energy : forall q k, In q l -> (k < dim)%nat ->
    Rsum (fun X => weight p X (q_x q) * (carried p (q_v q) (q_B q) (q_x q) X k * carried p (q_v q) (q_B q) (q_x q) X k)) pos
    = vget (q_v q) k * vget (q_v q) k + bscale * sumd (fun j => mget (q_B q) k j * mget (q_B q) k j).
  Proof.
    intros q k Hq Hk. set (x := q_x q). set (e := fun X => sumd (fun j => mget (q_B q) k j * (vget X j - vget x j))).
    rewrite (Rsum_ext _ (fun X => vget (q_v q) k * vget (q_v q) k * weight p X x + 2 * vget (q_v q) k * bscale * (weight p X x * e X) + bscale * (bscale * (weight p X x * (e X * e X))))) by (intros X _; rewrite carried_eq'; fold x; unfold e; ring).
    rewrite !Rsum_plus, !Rsum_scal, (m_1 p Hdx axes GO x (Cov q Hq)).
    assert (E1 : Rsum (fun X => weight p X x * e X) pos = 0).
    { unfold e. rewrite (Rsum_ext _ (fun X => sumd (fun j => mget (q_B q) k j * (weight p X x * (vget X j - vget x j))))). 2:{ intros y _. rewrite <- sumd_scal. apply sumd_ext. intros; ring. }
      rewrite <- (sumd_Rsum_swap _ (fun j X => mget (q_B q) k j * (weight p X x * (vget X j - vget x j)))). apply sumd_zero. intros j Hj. rewrite Rsum_scal, (m_x p Hdx axes GO x (Cov q Hq)) by auto. ring. }
    assert (E3 : bscale * (bscale * Rsum (fun X => weight p X x * (e X * e X)) pos) = bscale * sumd (fun j => mget (q_B q) k j * mget (q_B q) k j)).
    { unfold e. rewrite (Rsum_ext _ (fun X => sumd (fun i => sumd (fun j => mget (q_B q) k i * mget (q_B q) k j * (weight p X x * ((vget X i - vget x i) * (vget X j - vget x j))))))).
      2:{ intros y _. rewrite <- sumd_scalr, <- sumd_scal. apply sumd_ext. intros i _. rewrite <- !sumd_scal. apply sumd_ext. intros; ring. }
      rewrite <- (sumd_Rsum_swap _ (fun i X => sumd (fun j => mget (q_B q) k i * mget (q_B q) k j * (weight p X x * ((vget X i - vget x i) * (vget X j - vget x j)))))). rewrite <- !sumd_scal. apply sumd_ext. intros i Hi.
      rewrite <- (sumd_Rsum_swap _ (fun j X => mget (q_B q) k i * mget (q_B q) k j * (weight p X x * ((vget X i - vget x i) * (vget X j - vget x j))))). rewrite <- !sumd_scal.
      rewrite (sumd_ext _ (fun j => if Nat.eqb i j then bscale * (mget (q_B q) k i * mget (q_B q) k j) else 0)); [now rewrite sumd_pick by auto|].
      intros j Hj. rewrite Rsum_scal. transitivity (mget (q_B q) k i * mget (q_B q) k j * (bscale * (bscale * Rsum (fun X => weight p X x * ((vget X i - vget x i) * (vget X j - vget x j))) pos))); [ring|]. unfold x. rewrite bscale_xx by auto. destruct (Nat.eqb i j); ring. }
    rewrite E1, E3. ring.
  Qed.
  (** Particles to grid. *)
  Lemma projected_energy : Rsum (fun X => node_mass p l X / 2 * sumd (fun k => projected p l X k * projected p l X k)) pos <= kinetic_energy p l.
  Proof.
    rewrite ke_eq.
    apply Rle_trans with (particle_mass p / 2 * Rsum (fun X => Rsum (fun q => sumd (fun k => weight p X (q_x q) * (carried p (q_v q) (q_B q) (q_x q) X k * carried p (q_v q) (q_B q) (q_x q) X k))) l) pos).
    - rewrite <- Rsum_scal. apply Rsum_le. intros X HX. unfold node_mass.
      replace (particle_mass p * Rsum (fun q => weight p X (q_x q)) l / 2 * sumd (fun k => projected p l X k * projected p l X k))
        with (particle_mass p / 2 * sumd (fun k => Rsum (fun q => weight p X (q_x q)) l * (projected p l X k * projected p l X k))) by (rewrite sumd_scal; field).
      apply Rmult_le_compat_l; [lra|]. rewrite <- (sumd_Rsum_swap _ (fun k q => weight p X (q_x q) * (carried p (q_v q) (q_B q) (q_x q) X k * carried p (q_v q) (q_B q) (q_x q) X k))).
      apply sumd_le. intros k Hk. assert (W : 0 <= Rsum (fun q => weight p X (q_x q)) l) by (apply Rsum_nonneg; intros; apply w_nonneg).
      destruct W as [W|W].
      + apply (jensen _ l (fun q => weight p X (q_x q)) (fun q => carried p (q_v q) (q_B q) (q_x q) X k)); auto. intros; apply w_nonneg.
      + rewrite <- W, Rmult_0_l. apply Rsum_nonneg. intros q Hq. apply Rmult_le_pos; [apply w_nonneg|apply Rle_0_sqr].
    - apply Req_le. f_equal. rewrite Rsum_swap. apply Rsum_ext. intros q Hq.
      rewrite <- (sumd_Rsum_swap _ (fun k X => weight p X (q_x q) * (carried p (q_v q) (q_B q) (q_x q) X k * carried p (q_v q) (q_B q) (q_x q) X k))). apply sumd_ext. intros k Hk. now apply carried_energy.
  Qed.
  (** Grid to particles: plain and affine PIC. *)
  Lemma gathered_energy : forall grid, length grid = length pos -> flip_ratio p < -1 \/ flip_ratio p = 0 ->
    forall l1, Forall2 (fun q q1 => (forall k, (k < dim)%nat -> vget (q_v q1) k = interpolated p (combine pos grid) (q_x q) (fun _ nd => vget (nd_v nd) k)) /\
      (flip_ratio p < 0 -> forall i j, (i < dim)%nat -> (j < dim)%nat -> mget (q_B q1) i j = interpolated p (combine pos grid) (q_x q) (fun X nd => vget (nd_v nd) i * (vget X j - vget (q_x q) j)))) l l1 ->
    kinetic_energy p l1 <= Rsum (fun Xn => node_mass p l (fst Xn) / 2 * sumd (fun k => vget (nd_v (snd Xn)) k * vget (nd_v (snd Xn)) k)) (combine pos grid).
  Proof.
    intros grid Lg Hf l1 F. rewrite ke_eq.
    apply Rle_trans with (particle_mass p / 2 * Rsum (fun q => sumd (fun k => Rsum (fun Xn => weight p (fst Xn) (q_x q) * (vget (nd_v (snd Xn)) k * vget (nd_v (snd Xn)) k)) (combine pos grid))) l).
    - apply Rmult_le_compat_l; [lra|].
      assert (K : forall q q1, In q l -> (forall k, (k < dim)%nat -> vget (q_v q1) k = interpolated p (combine pos grid) (q_x q) (fun _ nd => vget (nd_v nd) k)) /\
        (flip_ratio p < 0 -> forall i j, (i < dim)%nat -> (j < dim)%nat -> mget (q_B q1) i j = interpolated p (combine pos grid) (q_x q) (fun X nd => vget (nd_v nd) i * (vget X j - vget (q_x q) j))) ->
        sumd (fun k => vget (q_v q1) k * vget (q_v q1) k + bscale * sumd (fun j => mget (q_B q1) k j * mget (q_B q1) k j)) <= sumd (fun k => Rsum (fun Xn => weight p (fst Xn) (q_x q) * (vget (nd_v (snd Xn)) k * vget (nd_v (snd Xn)) k)) (combine pos grid))).
      { intros q q1 Hq (Hv & HB). apply sumd_le. intros k Hk. set (x := q_x q) in *.
        pose proof (fit_energy _ (combine pos grid) (fun Xn => weight p (fst Xn) x) (fun Xn => vget (nd_v (snd Xn)) k) (fun j Xn => vget (fst Xn) j - vget x j) bscale) as Fe.
        eapply Rle_trans; [|apply Fe].
        - rewrite Hv by auto. unfold interpolated. apply Rplus_le_compat_l. apply Req_le. unfold bscale. destruct (Rlt_dec (flip_ratio p) 0) as [N|N]; [|ring]. f_equal. apply sumd_ext. intros j Hj. rewrite HB by auto. reflexivity.
        - intros; apply w_nonneg.
        - rewrite (Rsum_fst _ _ (fun X => weight p X x)) by auto. apply (m_1 p Hdx axes GO x (Cov q Hq)).
        - intros j Hj. rewrite (Rsum_fst _ _ (fun X => weight p X x * (vget X j - vget x j))) by auto. now apply (m_x p Hdx axes GO x (Cov q Hq)).
        - intros i j Hi Hj. rewrite (Rsum_fst _ _ (fun X => weight p X x * ((vget X i - vget x i) * (vget X j - vget x j)))) by auto. now apply bscale_xx. }
      clear Cov Ol. induction F as [|q q1 r r1 H F IH]; cbn [Rsum]; [lra|]. apply Rplus_le_compat; [apply K; [now left|exact H]|apply IH; intros; apply K; auto; now right].
    - apply Req_le. unfold node_mass.
      rewrite (Rsum_ext (fun Xn => particle_mass p * Rsum (fun q => weight p (fst Xn) (q_x q)) l / 2 * sumd (fun k => vget (nd_v (snd Xn)) k * vget (nd_v (snd Xn)) k))
        (fun Xn => particle_mass p / 2 * Rsum (fun q => sumd (fun k => weight p (fst Xn) (q_x q) * (vget (nd_v (snd Xn)) k * vget (nd_v (snd Xn)) k))) l)).
      2:{ intros Xn _. rewrite (Rsum_ext (fun q => sumd _) (fun q => weight p (fst Xn) (q_x q) * sumd (fun k => vget (nd_v (snd Xn)) k * vget (nd_v (snd Xn)) k))) by (intros; now rewrite sumd_scal). rewrite Rsum_scalr. field. }
      rewrite Rsum_scal. f_equal. rewrite Rsum_swap. apply Rsum_ext. intros q Hq. now rewrite (sumd_Rsum_swap _ (fun k Xn => weight p (fst Xn) (q_x q) * (vget (nd_v (snd Xn)) k * vget (nd_v (snd Xn)) k))).
  Qed.
End Energy.

(** ** One step *)
Section Step.
  Context {G : Geo R} {GL : GeoLaws G}.
  Variable svd : TM -> TM * TV * TM.
  Variable uabs : R -> R.
  Variables (af : nat) (p : Par R) (sc : Sched) (s0 s1 : St R) (n : nat).
  Hypothesis Hdx : 0 < dx p.
  Hypothesis Hm : 0 < particle_mass p.
  Hypothesis Hpbc : use_pbc p = false.
  Hypothesis V : valid_sched sc.
  Hypothesis W : well_formed s0 n.
  Hypothesis H : advanceStep svd uabs af p sc s0 = Ok s1.
  Hypothesis GO : GridOk p (s_axes s1).
  Hypothesis RC : regular_cloud p (s_axes s1) (p_x (s_p s0)).
  Notation l := (particles (s_p s0)).
  Notation l1 := (particles (s_p s1)).
  Notation pos := (positions (s_axes s1)).
  Lemma bl_cov : (forall q, In q l -> Covered p (s_axes s1) (q_x q)) /\ (spline p = Deg1 -> forall q, In q l -> off_lines p (s_axes s1) (q_x q)).
  Proof using All.
    destruct (wf_pack s0 n W) as (l0 & Ll & E & Nn & Fi). destruct (step_run svd uabs af p sc s0 s1 l0 V E Nn Fi H) as [Rn].
    assert (El : l = l0) by (rewrite E; apply particles_pack). rewrite El. split; [exact (r_cov svd uabs af p sc s0 s1 l0 Rn Hdx GO)|].
    intros Hs q Hq. apply off_lines_iff. apply RC; auto. rewrite E; unfold pack; cbn [p_x]; now apply in_map.
  Qed.
  Lemma grid_len : forall grid, Forall2 (node_law p (s_plates s0) (s_dt s1) (s_grav s1) l) pos grid -> length grid = length pos.
  Proof using All. intros grid F. symmetry. exact (F2_length _ _ _ _ _ F). Qed.
  Lemma in_comb : forall grid, Forall2 (node_law p (s_plates s0) (s_dt s1) (s_grav s1) l) pos grid ->
    forall X nd, In (X, nd) (combine pos grid) -> In X pos /\ node_law p (s_plates s0) (s_dt s1) (s_grav s1) l X nd.
  Proof using All.
    intros grid F. clear - F. induction F as [|x y a b Hxy F IH]; intros X nd Hi; [destruct Hi|]. destruct Hi as [E|Hi].
    - assert (x = X /\ y = nd) as (-> & ->) by (split; congruence). split; [now left|auto].
    - destruct (IH _ _ Hi). split; [now right|auto].
  Qed.
  Lemma node_mass_law : forall X nd, node_law p (s_plates s0) (s_dt s1) (s_grav s1) l X nd -> nd_m nd = node_mass p l X.
  Proof using All. intros X nd N. exact (nl_mass _ _ _ _ _ _ _ N). Qed.

  (** Momentum of every node, also of the empty ones. *)
  Lemma node_momentum : objects p = [] -> s_plates s0 = [] -> forall X nd, In X pos -> node_law p (s_plates s0) (s_dt s1) (s_grav s1) l X nd ->
    forall k, (k < dim)%nat -> node_mass p l X * vget (nd_v nd) k = brought p l X k + s_dt s1 * node_force p (s_grav s1) l X k.
  Proof using All.
    intros Ho Hp X nd HX N k Hk. destruct bl_cov as (Cov & Ol). pose proof (node_mass_law X nd N) as Em.
    pose proof (mass_nonneg p Hm l X) as [Mp|Mz].
    - destruct (nl_newton _ _ _ _ _ _ _ N ltac:(lra)) as (free & mu & Fe & _ & Bc).
      unfold boundaryCollision, objects_loop, plates_loop in Bc. rewrite Ho, Hp in Bc. cbv zeta in Bc. cbn in Bc. assert (free = nd_v nd) by congruence. subst free.
      specialize (Fe k Hk). rewrite Em in Fe. unfold node_force. pose proof (brought_projected p Hdx Hm (s_axes s1) GO l Cov Ol X k HX). lra.
    - destruct (empty_node p Hdx Hm (s_axes s1) GO l Cov Ol X HX (eq_sym Mz)) as (Wz & Iz).
      unfold node_force. rewrite <- Mz, Iz by auto. unfold brought. rewrite (Rsum_ext _ (fun _ => 0)); [|intros q Hq; rewrite (Wz q Hq); ring]. rewrite Rsum_zero by auto. ring.
  Qed.

  (** Angular momentum. *)
  Theorem angular_step : free_space p s0 -> flip_ratio p < -1 -> spline p <> Deg1 -> symmetric_stress l -> forall i j, (i < dim)%nat -> (j < dim)%nat ->
    angular_momentum p l1 i j = angular_momentum p l i j + s_dt s1 * gravity_torque p (s_grav s1) l i j.
  Proof using All.
    intros (_ & Hcp & Ho & Hpl) Hf Hs Sy i j Hi Hj. destruct bl_cov as (Cov & Ol).
    destruct (step_laws svd uabs af p sc s0 s1 n Hdx Hm Hpbc V W H GO RC) as (grid & NL & _ & PL). cbv zeta in *.
    pose proof (grid_len grid NL) as Lg. set (g := combine pos grid) in *.
    assert (A : angular_momentum p l1 i j = Rsum (fun Xn => node_mass p l (fst Xn) * wedge (fst Xn) (nd_v (snd Xn)) i j) g).
    { unfold angular_momentum.
      rewrite <- (F2_Rsum _ _ (fun q => Rsum (fun Xn => weight p (fst Xn) (q_x q) * wedge (fst Xn) (nd_v (snd Xn)) i j) g) (fun q => wedge (q_x q) (q_v q) i j + (mget (q_B q) j i - mget (q_B q) i j)) _ _ _) with (2 := PL).
      - rewrite Rsum_swap, <- Rsum_scal. apply Rsum_ext. intros Xn _. unfold node_mass. rewrite Rsum_scalr. ring.
      - intros q q1 Pl. unfold wedge. rewrite !(pl_velocity _ _ _ _ _ _ _ _ _ Pl), !(pl_moves _ _ _ _ _ _ _ _ _ Pl), !(pl_affine _ _ _ _ _ _ _ _ _ Pl) by (auto; lra).
        unfold blend. destruct (Rlt_dec (flip_ratio p) (-1)); [|lra].
        set (Ii := interpolated p g (q_x q) (fun _ nd => vget (nd_v nd) i)). set (Ij := interpolated p g (q_x q) (fun _ nd => vget (nd_v nd) j)).
        assert (E : forall a b, interpolated p g (q_x q) (fun X nd => vget (nd_v nd) a * (vget X b - vget (q_x q) b)) = Rsum (fun Xn => weight p (fst Xn) (q_x q) * (vget (fst Xn) b * vget (nd_v (snd Xn)) a)) g - vget (q_x q) b * interpolated p g (q_x q) (fun _ nd => vget (nd_v nd) a)).
        { intros a b. unfold interpolated. rewrite <- Rsum_scal. unfold Rminus. rewrite <- Rsum_opp, <- Rsum_plus. apply Rsum_ext. intros; ring. }
        rewrite !E. fold Ii Ij. rewrite (Rsum_ext (fun Xn => weight p (fst Xn) (q_x q) * (vget (fst Xn) i * vget (nd_v (snd Xn)) j - vget (fst Xn) j * vget (nd_v (snd Xn)) i))
          (fun Xn => weight p (fst Xn) (q_x q) * (vget (fst Xn) i * vget (nd_v (snd Xn)) j) + - (weight p (fst Xn) (q_x q) * (vget (fst Xn) j * vget (nd_v (snd Xn)) i)))) by (intros; ring).
        rewrite Rsum_plus, Rsum_opp. ring. }
    rewrite A. rewrite (Rsum_ext _ (fun Xn => vget (fst Xn) i * brought p l (fst Xn) j - vget (fst Xn) j * brought p l (fst Xn) i
       + s_dt s1 * (vget (fst Xn) i * internal p l (fst Xn) j - vget (fst Xn) j * internal p l (fst Xn) i)
       + s_dt s1 * vget (s_grav s1) j * (node_mass p l (fst Xn) * vget (fst Xn) i) + - (s_dt s1 * vget (s_grav s1) i) * (node_mass p l (fst Xn) * vget (fst Xn) j))).
    2:{ intros (X, nd) Hi'. destruct (in_comb grid NL X nd Hi') as (HX & N). cbn [fst snd]. unfold wedge.
        pose proof (node_momentum Ho Hpl X nd HX N i Hi) as Mi. pose proof (node_momentum Ho Hpl X nd HX N j Hj) as Mj. unfold node_force in *.
        transitivity (vget X i * (node_mass p l X * vget (nd_v nd) j) - vget X j * (node_mass p l X * vget (nd_v nd) i)); [ring|]. rewrite Mi, Mj. ring. }
    rewrite !Rsum_plus, !Rsum_scal. unfold g.
    rewrite (Rsum_fst _ _ (fun X => vget X i * brought p l X j - vget X j * brought p l X i)) by auto.
    rewrite (Rsum_fst _ _ (fun X => vget X i * internal p l X j - vget X j * internal p l X i)) by auto.
    rewrite (Rsum_fst _ _ (fun X => node_mass p l X * vget X i)), (Rsum_fst _ _ (fun X => node_mass p l X * vget X j)) by auto.
    rewrite (brought_angular p Hdx (s_axes s1) GO l Cov), (internal_torque p Hdx (s_axes s1) GO l Cov), !(mass_moment p Hdx (s_axes s1) GO l Cov) by (auto; lra).
    unfold gravity_torque, wedge. rewrite (Rsum_ext (fun q => vget (q_x q) i * vget (s_grav s1) j - vget (q_x q) j * vget (s_grav s1) i) (fun q => vget (s_grav s1) j * vget (q_x q) i + - (vget (s_grav s1) i * vget (q_x q) j))) by (intros; ring).
    rewrite Rsum_plus, Rsum_opp, !Rsum_scal. ring.
  Qed.

  (** Kinetic energy. *)
  Theorem energy_step : two_or_three G -> flip_ratio p < -1 \/ flip_ratio p = 0 -> passive p s0 ->
    kinetic_energy p l1 <= kinetic_energy p l + work p (s_dt s1) (s_grav s1) (s_axes s1) l.
  Proof using All.
    intros HG Hf (Pu & Pv & Pf). destruct bl_cov as (Cov & Ol).
    destruct (step_laws svd uabs af p sc s0 s1 n Hdx Hm Hpbc V W H GO RC) as (grid & NL & _ & PL). cbv zeta in *.
    pose proof (grid_len grid NL) as Lg.
    eapply Rle_trans; [eapply (gathered_energy p Hdx Hm (s_axes s1) GO l Cov Ol grid Lg Hf)|].
    - eapply F2_impl; [|exact PL]. intros q q1 _ Pl. split.
      + intros k Hk. rewrite (pl_velocity _ _ _ _ _ _ _ _ _ Pl k Hk). unfold blend. destruct (Rlt_dec (flip_ratio p) (-1)); [reflexivity|]. destruct Hf as [Hf|Hf]; [lra|]. rewrite Hf. destruct (Rlt_dec 0 0); [lra|]. ring.
      + intros Hn. exact (pl_affine _ _ _ _ _ _ _ _ _ Pl Hn).
    - apply Rle_trans with (Rsum (fun X => node_mass p l X / 2 * sumd (fun k => projected p l X k * projected p l X k) + node_work p (s_dt s1) (s_grav s1) l X) pos).
      2:{ rewrite Rsum_plus. unfold work. apply Rplus_le_compat_r. apply (projected_energy p Hdx Hm (s_axes s1) GO l Cov Ol). }
      rewrite <- (Rsum_fst _ _ (fun X => node_mass p l X / 2 * sumd (fun k => projected p l X k * projected p l X k) + node_work p (s_dt s1) (s_grav s1) l X) pos grid) by auto.
      apply Rsum_le. intros (X, nd) Hi. cbn [fst snd]. destruct (in_comb grid NL X nd Hi) as (HX & N). pose proof (node_mass_law X nd N) as Em.
      unfold node_work. rewrite (sum_axes_sumd G GL).
      pose proof (mass_nonneg p Hm l X) as [Mp|Mz].
      + destruct (nl_newton _ _ _ _ _ _ _ N ltac:(lra)) as (free & mu & Fe & Fmu & Bc).
        assert (Sq : vsqnorm (nd_v nd) <= vsqnorm free).
        { eapply (bc_energy p HG); [| |exact Bc]; [intros o Ho X0 n0; now apply Pu|]. intros pl Hpl. split; [now apply Pv|].
          destruct (use_mibf p); [|now apply Pf]. rewrite (Fmu eq_refl). apply Rmult_le_pos.
          - apply Rsum_nonneg. intros q Hq. apply Rmult_le_pos; [apply w_nonneg|now apply Pf].
          - apply Rlt_le, Rinv_0_lt_compat. unfold node_mass in Mp. nra. }
        change (sumd (fun k => vget (nd_v nd) k * vget (nd_v nd) k) <= sumd (fun k => vget free k * vget free k)) in Sq.
        apply Rle_trans with (node_mass p l X / 2 * sumd (fun k => vget free k * vget free k)); [apply Rmult_le_compat_l; lra|].
        apply Req_le. rewrite <- !sumd_scal, <- sumd_plus. apply sumd_ext. intros k Hk. specialize (Fe k Hk). rewrite Em in Fe. fold (node_force p (s_grav s1) l X k) in Fe.
        cbv zeta. assert (E : vget free k = projected p l X k + s_dt s1 * node_force p (s_grav s1) l X k / node_mass p l X) by (rewrite <- Fe; field; lra).
        rewrite E. field. lra.
      + destruct (empty_node p Hdx Hm (s_axes s1) GO l Cov Ol X HX (eq_sym Mz)) as (Wz & Iz). rewrite <- Mz. 
        unfold Rdiv at 1 2. rewrite !Rmult_0_l, Rplus_0_l. apply Req_le. symmetry. apply sumd_zero. intros k Hk. cbv zeta. unfold node_force. rewrite <- Mz, Iz by auto. unfold Rdiv. ring.
  Qed.
End Step.
