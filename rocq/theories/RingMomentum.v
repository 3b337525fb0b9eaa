(** * RingMomentum: what the nodes of one period of a periodic grid add up to. *)
From Coq Require Import Reals ZArith Lra Lia List Bool Permutation.
From Verif Require Import Num NumR Tools Lin Types Remesh Objects Transfer Rma Plastic Pbc Step Spec SpecStep SpecMech SpecMaterial SpecMpm SpecLocal SpecPbc SpecRing LinProofs ResProofs
  KernelProofs GridProofs StencilProofs RemeshProofs GradProofs PloopProofs PbcProofs StepProofs StepMech StepField PlasticModels IndexProofs MpmProofs BalanceProofs TwinProofs LocalProofs RingProofs PropPbc PropRing RingBalance.
Import ListNotations.
Local Open Scope R_scope.

Lemma in_combine_nth : forall X Y (l : list X) (l' : list Y) x y, In (x, y) (combine l l') -> exists j, nth_error l j = Some x /\ nth_error l' j = Some y.
Proof.
  induction l as [|a l IH]; intros [|b l'] x y H; cbn in H; try contradiction. destruct H as [E|H].
  - exists 0%nat. split; cbn; congruence.
  - destruct (IH l' x y H) as (j & A & B). exists (S j). auto.
Qed.
Lemma Rsum_opp0 : forall X (f : X -> R) l, (forall x, In x l -> 0 <= f x) -> ~ 0 < Rsum f l -> forall x, In x l -> f x = 0.
Proof.
  intros X f l H N x Hx. pose proof (Rsum_ge_one f l x H Hx) as Q. specialize (H x Hx). lra.
Qed.

Section Momentum.
  Context {G : Geo R} {GL : GeoLaws G}.
  Variable p : Par R.
  Hypothesis Hdx : 0 < dx p.
  Hypothesis Hm : 0 < particle_mass p.
  Variable N : nat.
  Hypothesis HN8 : (8 <= N)%nat.
  Hypothesis HN : Lx p = INR N * dx p.
  Variables (af : nat) (axes : list (Axis R)).
  Hypothesis Ea : remeshFixed af p 4 = Ok axes.
  Hypothesis GO : GridOk p axes.
  Variables (l : list (P1 R)) (grid : list (Node R)) (dt : R) (grav : TV).
  Hypothesis Ob : objects p = [].
  Hypothesis Lg : length grid = length (positions axes).
  Hypothesis In0 : forall q, In q l -> 0 <= vget (q_x q) 0 < Lx p.
  Hypothesis Cov : forall q, In q l -> Covered p axes (q_x q).
  Hypothesis Ol : spline p = Deg1 -> forall q, In q (copies p 1 l) -> Covered p axes (q_x q) -> off_lines p axes (q_x q).
  Hypothesis NL : forall j X nd, nth_error (positions axes) j = Some X -> nth_error grid j = Some nd ->
       - kernel_radius p < vget X 0 < Lx p + kernel_radius p -> node_law p [] dt grav (copies p 1 l) X nd.
  Let cp := copies p 1 l.
  Let per := period p N axes.
  Let pos := positions axes.
  Let N8 : 8 <= INR N.
  Proof. apply (le_INR 8) in HN8. cbn in HN8. lra. Qed.
  Let L8 : 8 * dx p <= Lx p.
  Proof. rewrite HN. nra. Qed.

  Let kw : P1 R -> TV -> R := fun q X => weight p X (q_x q).
  Let kc (k : nat) : P1 R -> TV -> R := fun q X => weight p X (q_x q) * carried p (q_v q) (q_B q) (q_x q) X k.
  Let kf (k : nat) : P1 R -> TV -> R := fun q X => sum_axes (fun j => mget (q_tau q) k j * dweight p X (q_x q) j).
  Lemma Kw : kernel p kw.
  Proof.
    pose proof (rad2 p Hdx) as R2. split; intros; unfold kw.
    - apply weight_shift.
    - apply (weight_outside p Hdx X (q_x q) 0 dim0). lra.
  Qed.
  Lemma Kc : forall k, (k < dim)%nat -> kernel p (kc k).
  Proof.
    intros k Hk. split; intros; unfold kc.
    - cbn [moved q_x q_v q_B]. rewrite weight_shift, carried_shift by auto. reflexivity.
    - pose proof (ke_range _ _ Kw q X H) as Z. unfold kw in Z. rewrite Z. ring.
  Qed.
  Lemma Kf : forall k, kernel p (kf k).
  Proof.
    intros k. pose proof (rad2 p Hdx) as R2. split; intros; unfold kf, sum_axes.
    - apply Rsum_ext. intros j Hj. apply in_seq in Hj. cbn [moved q_tau q_x]. rewrite dweight_shift by lia. reflexivity.
    - apply Rsum_zero. intros j Hj. apply in_seq in Hj. rewrite (dweight_outside p Hdx X (q_x q) 0 j dim0) by (lia || lra). ring.
  Qed.
  Let S X := Rsum (fun q => kw q X) cp.
  Let A k X := Rsum (fun q => kc k q X) cp.
  Let I k X := internal p cp X k.
  Let V k X := if Rlt_dec 0 (S X) then A k X / S X + dt * (vget grav k + I k X / (particle_mass p * S X)) else 0.
  Let U k X := if Rlt_dec 0 (S X) then dt * (vget grav k + I k X / (particle_mass p * S X)) else 0.
  Lemma S_nonneg : forall X, 0 <= S X.
  Proof. intros X. apply Rsum_nonneg. intros q _. apply w_nonneg; auto. Qed.
  Lemma seen_S : forall q X, In q l -> kw q X <> 0 -> 0 < S X.
  Proof.
    intros q X Hq Hw. pose proof (w_nonneg p X (q_x q)) as Q. apply Rlt_le_trans with (kw q X); [unfold kw in *; lra|].
    apply (Rsum_ge_one (fun q => kw q X)); [|now apply in_copies]. intros y _. apply w_nonneg; auto.
  Qed.
  Lemma node_value : forall q j X nd k, In q l -> nth_error pos j = Some X -> nth_error grid j = Some nd -> kw q X <> 0 -> (k < dim)%nat ->
    vget (nd_v nd) k = V k X /\ vget (nd_v nd) k - projected p cp X k = U k X.
  Proof.
    intros q j X nd k Hq Hj Hn Hw Hk. pose proof (w_nonneg p X (q_x q)) as Q. assert (Hw' : 0 < weight p X (q_x q)) by (unfold kw in Hw; lra).
    destruct (NL j X nd Hj Hn (seen_range p l Hdx In0 q X Hq Hw')) as [M _ Nw]. fold cp in M, Nw. pose proof (seen_S q X Hq Hw) as SP. change (Rsum (fun q => weight p X (q_x q)) cp) with (S X) in M.
    assert (MP : 0 < nd_m nd) by (rewrite M; now apply Rmult_lt_0_compat). destruct (Nw MP) as (free & mu & F & _ & B).
    unfold boundaryCollision, objects_loop, plates_loop in B. rewrite Ob in B. cbn [foldM bind fold_left] in B. apply Ok_inj in B. cbn [fold_left] in B. rewrite <- B.
    specialize (F k Hk). assert (PR : projected p cp X k = A k X / S X) by reflexivity. fold (I k X) in F.
    assert (E : vget free k = projected p cp X k + dt * (vget grav k + I k X / (particle_mass p * S X))).
    { rewrite M in F, MP. apply Rmult_eq_reg_l with (particle_mass p * S X); [|lra]. apply Rplus_eq_reg_r with (- (particle_mass p * S X * projected p cp X k)).
      transitivity (particle_mass p * S X * (vget free k - projected p cp X k)); [ring|]. rewrite F. field. lra. }
    unfold V, U. destruct (Rlt_dec 0 (S X)); [|lra]. rewrite E, PR. split; ring.
  Qed.
  (** A particle's sums over the nodes in terms of the periodic fields. *)
  Lemma interp_field : forall q k, In q l -> (k < dim)%nat ->
    interpolated p (combine pos grid) (q_x q) (fun _ nd => vget (nd_v nd) k) = Rsum (fun X => kw q X * V k X) pos /\
    interpolated p (combine pos grid) (q_x q) (fun X nd => vget (nd_v nd) k - projected p cp X k) = Rsum (fun X => kw q X * U k X) pos.
  Proof.
    intros q k Hq Hk. unfold interpolated. rewrite <- (Rsum_fst _ _ (fun X => kw q X * V k X) pos grid) by (symmetry; exact Lg).
    rewrite <- (Rsum_fst _ _ (fun X => kw q X * U k X) pos grid) by (symmetry; exact Lg). split; apply Rsum_ext; intros (X, nd) Hi; cbn [fst snd];
    destruct (in_combine_nth _ _ _ _ _ _ Hi) as (j & Hj & Hn); (destruct (Req_dec (kw q X) 0) as [Z|Z]; [unfold kw in Z; unfold kw; rewrite Z; ring|]);
    destruct (node_value q j X nd k Hq Hj Hn Z Hk) as (E1 & E2); unfold kw; [rewrite E1|rewrite E2]; reflexivity.
  Qed.
  (** The fields repeat themselves. *)
  Lemma fields_periodic : forall k q X z, (k < dim)%nat -> In q l -> In X per -> In z three -> kw q (shift_x X (IZR z * Lx p)) <> 0 ->
    V k (shift_x X (IZR z * Lx p)) = V k X /\ U k (shift_x X (IZR z * Lx p)) = U k X.
  Proof.
    intros k q X z Hk Hq HX Hz Hw. pose proof (w_nonneg p (shift_x X (IZR z * Lx p)) (q_x q)) as Q. assert (Hw' : 0 < weight p (shift_x X (IZR z * Lx p)) (q_x q)) by (unfold kw in Hw; lra).
    pose proof (seen_range p l Hdx In0 q _ Hq Hw') as Rg. rewrite shift_0 in Rg. pose proof (rad2 p Hdx) as R2. destruct (period_in p Hdx N HN8 HN af axes Ea GO X HX) as (_ & X0).
    assert (Rg' : - 2 * dx p < vget X 0 + IZR z * Lx p < Lx p + 2 * dx p) by lra.
    assert (ES : S (shift_x X (IZR z * Lx p)) = S X) by (apply (copies_periodic p Hdx N HN8 HN kw l X z Kw In0 X0 Hz Rg')).
    assert (EA : A k (shift_x X (IZR z * Lx p)) = A k X) by (apply (copies_periodic p Hdx N HN8 HN (kc k) l X z (Kc k Hk) In0 X0 Hz Rg')).
    assert (EI : I k (shift_x X (IZR z * Lx p)) = I k X) by (unfold I, internal; f_equal; apply (copies_periodic p Hdx N HN8 HN (kf k) l X z (Kf k) In0 X0 Hz Rg')).
    unfold V, U. rewrite ES, EA, EI. auto.
  Qed.
  (** A copy that reaches a node of the period lies in the grid. *)
  Lemma copy_in : forall q X, In q cp -> In X per -> Covered p axes (q_x q) \/ 2 * dx p < Rabs (vget (q_x q) 0 - vget X 0).
  Proof.
    intros q X Hq HX. destruct (period_in p Hdx N HN8 HN af axes Ea GO X HX) as (_ & X0).
    destruct (Rlt_dec (2 * dx p) (Rabs (vget (q_x q) 0 - vget X 0))) as [F|F]; [now right|left].
    unfold cp, copies in Hq. apply in_flat_map in Hq. destruct Hq as (z & _ & Hq). apply in_map_iff in Hq. destruct Hq as (q' & <- & Hq'). cbn [moved q_x] in *.
    assert (R0 : - 4 * dx p <= vget (shift_x (q_x q') (IZR z * Lx p)) 0 < Lx p + 4 * dx p) by (unfold Rabs in F; destruct (Rcase_abs _); lra).
    intros k a Ha. assert (Hk : (k < dim)%nat) by (rewrite <- (go_dim _ _ GO); apply nth_error_Some; congruence).
    destruct (Nat.eq_dec k 0) as [->|K0]; [|rewrite shift_k by lia; exact (Cov q' Hq' k a Ha)].
    pose proof Ea as Ea'. unfold remeshFixed in Ea'. eapply mapM_seq_nth in Ea'; eauto. unfold remeshFixed_axis in Ea'. apply mk_axis_spec in Ea'; auto. destruct Ea' as (C & _ & S2 & _).
    rewrite ?nofZ_R in *. revert C S2. numR. intros C S2. apply covered_iff; auto. rewrite C. simpl Z.add in *. split; lra.
  Qed.
  Lemma empty_period : forall X k, In X per -> (k < dim)%nat -> ~ 0 < S X -> S X = 0 /\ A k X = 0 /\ I k X = 0.
  Proof.
    intros X k HX Hk Hs. pose proof (S_nonneg X) as Sn. split; [lra|].
    assert (Z : forall q, In q cp -> kw q X = 0) by (apply Rsum_opp0; [intros; apply w_nonneg; auto|exact Hs]). split.
    - apply Rsum_zero. intros q Hq. unfold kc. specialize (Z q Hq). unfold kw in Z. rewrite Z. ring.
    - unfold I, internal. rewrite Rsum_zero; [ring|]. intros q Hq. destruct (copy_in q X Hq HX) as [C|F]; [|exact (ke_range _ _ (Kf k) q X F)].
      unfold sum_axes. apply Rsum_zero. intros j Hj. apply in_seq in Hj. destruct (period_in p Hdx N HN8 HN af axes Ea GO X HX) as (HX' & _).
      rewrite (d_zero p Hdx axes GO [q]) with (X := X) (k := j); try ring; auto; try lia.
      + intros y [<-|[]]; auto.
      + intros Hs' y [<-|[]]; auto.
      + now left.
      + exact (Z q Hq).
  Qed.
  Lemma V_S : forall X k, In X per -> (k < dim)%nat -> V k X * S X = A k X + dt * (vget grav k * S X + I k X / particle_mass p) /\ U k X * S X = dt * (vget grav k * S X + I k X / particle_mass p).
  Proof.
    intros X k HX Hk. unfold V, U. destruct (Rlt_dec 0 (S X)) as [P|P].
    - split; field; lra.
    - destruct (empty_period X k HX Hk P) as (-> & -> & ->). split; field; lra.
  Qed.
  (** Sums over the period of what the copies bring. *)
  Lemma flat_exchange : forall Psi, kernel p Psi -> Rsum (fun X => Rsum (fun q => Psi q X) cp) per = Rsum (fun q => Rsum (Psi q) pos) l.
  Proof.
    intros Psi K. pose proof (exchange p Hdx N HN8 HN af axes Ea GO Psi (fun _ => 1) l K In0 ltac:(auto)) as E.
    transitivity (Rsum (fun X => 1 * Rsum (fun q => Psi q X) (copies p 1 l)) (period p N axes)); [apply Rsum_ext; intros; fold cp; ring|].
    rewrite <- E. apply Rsum_ext. intros q _. apply Rsum_ext. intros; ring.
  Qed.
  Lemma own_off : forall q, In q l -> spline p = Deg1 -> off_lines p axes (q_x q).
  Proof. intros q Hq Hs. apply Ol; auto. now apply in_copies. Qed.
  Lemma sum_S : Rsum S per = INR (length l).
  Proof.
    unfold S. rewrite (flat_exchange kw Kw). rewrite (Rsum_ext _ (fun _ => 1)).
    - clear. induction l as [|q r IH]; [reflexivity|]. cbn [Rsum length]. rewrite IH, S_INR. ring.
    - intros q Hq. apply (m_1 p Hdx axes GO); auto.
  Qed.
  Lemma sum_A : forall k, (k < dim)%nat -> Rsum (A k) per = Rsum (fun q => vget (q_v q) k) l.
  Proof.
    intros k Hk. unfold A. rewrite (flat_exchange (kc k) (Kc k Hk)). apply Rsum_ext. intros q Hq. unfold kc, carried.
    set (c := if Rlt_dec (flip_ratio p) 0 then apic_scale p else 0).
    rewrite (Rsum_ext _ (fun X => vget (q_v q) k * weight p X (q_x q) + c * Rsum (fun j => mget (q_B q) k j * (weight p X (q_x q) * (vget X j - vget (q_x q) j))) (seq 0 dim))).
    - rewrite Rsum_plus, !Rsum_scal. rewrite (m_1 p Hdx axes GO) by auto. rewrite Rsum_exch, Rsum_zero; [ring|]. intros j Hj. apply in_seq in Hj.
      rewrite Rsum_scal, (m_x p Hdx axes GO) by (auto; lia). ring.
    - intros X _. unfold c, sum_axes. destruct (Rlt_dec _ _); [|ring]. rewrite Rmult_plus_distr_l. f_equal; [ring|]. rewrite (Rmult_comm (weight p X (q_x q))), Rmult_assoc. f_equal.
      rewrite Rmult_comm, <- Rsum_scal. apply Rsum_ext. intros; ring.
  Qed.
  Lemma sum_I : forall k, Rsum (I k) per = 0.
  Proof.
    intros k. unfold I, internal. rewrite Rsum_scal. pose proof (flat_exchange (kf k) (Kf k)) as E. unfold kf in E at 1. rewrite E. rewrite Rsum_zero; [ring|]. intros q Hq. unfold kf, sum_axes. rewrite Rsum_exch. apply Rsum_zero.
    intros j Hj. apply in_seq in Hj. rewrite Rsum_scal, (m_d p Hdx axes GO) by (auto using own_off; lia). ring.
  Qed.
  Lemma sum_pic : forall k, (k < dim)%nat -> Rsum (fun q => interpolated p (combine pos grid) (q_x q) (fun _ nd => vget (nd_v nd) k)) l = Rsum (fun q => vget (q_v q) k) l + dt * INR (length l) * vget grav k.
  Proof.
    intros k Hk. rewrite (Rsum_ext _ (fun q => Rsum (fun X => kw q X * V k X) pos)) by (intros q Hq; now apply interp_field).
    unfold pos. rewrite (exchange p Hdx N HN8 HN af axes Ea GO kw (V k) l Kw In0) by (intros q X z Hq HX Hz Hw; exact (proj1 (fields_periodic k q X z Hk Hq HX Hz Hw))).
    fold per cp. rewrite (Rsum_ext _ (fun X => A k X + (dt * vget grav k * S X + dt / particle_mass p * I k X))).
    - rewrite !Rsum_plus, !Rsum_scal, sum_I, sum_A by auto. rewrite sum_S. ring.
    - intros X HX. destruct (V_S X k HX Hk) as (E & _). change (Rsum (fun q => kw q X) cp) with (S X). rewrite E. field. lra.
  Qed.
  Lemma sum_inc : forall k, (k < dim)%nat -> Rsum (fun q => interpolated p (combine pos grid) (q_x q) (fun X nd => vget (nd_v nd) k - projected p cp X k)) l = dt * INR (length l) * vget grav k.
  Proof.
    intros k Hk. rewrite (Rsum_ext _ (fun q => Rsum (fun X => kw q X * U k X) pos)) by (intros q Hq; now apply interp_field).
    unfold pos. rewrite (exchange p Hdx N HN8 HN af axes Ea GO kw (U k) l Kw In0) by (intros q X z Hq HX Hz Hw; exact (proj2 (fields_periodic k q X z Hk Hq HX Hz Hw))).
    fold per cp. rewrite (Rsum_ext _ (fun X => dt * vget grav k * S X + dt / particle_mass p * I k X)).
    - rewrite !Rsum_plus, !Rsum_scal, sum_I. rewrite sum_S. ring.
    - intros X HX. destruct (V_S X k HX Hk) as (_ & E). change (Rsum (fun q => kw q X) cp) with (S X). rewrite E. field. lra.
  Qed.
  Lemma sum_blend : forall k, (k < dim)%nat ->
    Rsum (fun q => blend (flip_ratio p) (vget (q_v q) k) (interpolated p (combine pos grid) (q_x q) (fun X nd => vget (nd_v nd) k - projected p cp X k))
        (interpolated p (combine pos grid) (q_x q) (fun _ nd => vget (nd_v nd) k))) l = Rsum (fun q => vget (q_v q) k) l + dt * INR (length l) * vget grav k.
  Proof.
    intros k Hk. unfold blend. destruct (Rlt_dec _ _); [now apply sum_pic|]. destruct (Rlt_dec _ _); rewrite Rsum_plus, !Rsum_scal, Rsum_plus, sum_pic, sum_inc by auto; ring.
  Qed.
End Momentum.
