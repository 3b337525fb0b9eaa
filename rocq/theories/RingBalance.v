(** * RingBalance: sums over one period of a periodic grid. *)
From Coq Require Import Reals ZArith Lra Lia List Bool Permutation.
From Coquelicot Require Import Derive Lim_seq Continuity.
From Verif Require Import Num NumR Tools Lin Types Remesh Objects Transfer Rma Plastic Pbc Step Spec SpecStep SpecMech SpecMaterial SpecMpm SpecLocal SpecPbc SpecRing LinProofs ResProofs
  KernelProofs GridProofs StencilProofs RemeshProofs GradProofs PloopProofs PbcProofs StepProofs StepMech StepField PlasticModels IndexProofs MpmProofs BalanceProofs TwinProofs LocalProofs RingProofs PropPbc.
Import ListNotations.
Local Open Scope R_scope.

Section Shift.
  Context {G : Geo R} {GL : GeoLaws G}.
  Lemma shift_shift : forall (x : TV) d e, shift_x (shift_x x d) e = shift_x x (d + e).
  Proof. intros x d e. apply vext. intros k Hk. destruct (Nat.eq_dec k 0) as [->|K]; [rewrite !shift_0; ring|rewrite !shift_k by lia; reflexivity]. Qed.
  Lemma moved_moved : forall q d e, moved e (moved d q) = moved (d + e) q.
  Proof. intros. unfold moved. cbn [q_x q_v q_pic q_flip q_h q_F q_B q_tau]. now rewrite shift_shift. Qed.
  Variable p : Par R.
  Lemma weight_shift : forall X x d, weight p (shift_x X d) (shift_x x d) = weight p X x.
  Proof.
    intros X x d. unfold weight. f_equal. apply map_ext_in. intros k Hk. apply in_seq in Hk. f_equal. f_equal.
    destruct (Nat.eq_dec k 0) as [->|K]; [rewrite !shift_0; ring|rewrite !shift_k by lia; reflexivity].
  Qed.
  Lemma shift_set0 : forall (x : TV) d t, vset (shift_x x d) 0 t = vset x 0 t.
  Proof. intros. apply vext. intros k Hk. rewrite !vget_set by auto. destruct (Nat.eqb_spec 0 k) as [<-|K]; [reflexivity|]. destruct (Nat.eqb_spec k 0) as [->|K']; auto. apply shift_k. lia. Qed.
  Lemma set0_shift : forall (x : TV) d t, vset x 0 (t + d) = shift_x (vset x 0 t) d.
  Proof.
    intros. apply vext. intros k Hk. destruct (Nat.eq_dec k 0) as [->|K]; [rewrite shift_0, !vget_set, !Nat.eqb_refl by auto; ring|].
    rewrite shift_k, !vget_set by lia. destruct (Nat.eqb_spec 0 k); [lia|]. destruct (Nat.eqb_spec k 0); [lia|]. reflexivity.
  Qed.
  Lemma setk_shift : forall (x : TV) d k t, (0 < k < dim)%nat -> vset (shift_x x d) k t = shift_x (vset x k t) d.
  Proof.
    intros x d k t Hk. apply vext. intros i Hi. rewrite vget_set by auto. destruct (Nat.eq_dec i 0) as [->|K].
    - rewrite !shift_0, vget_set by auto. destruct (Nat.eqb_spec k 0); [lia|]. destruct (Nat.eqb_spec 0 k); [lia|]. reflexivity.
    - rewrite !shift_k, vget_set by lia. reflexivity.
  Qed.
  Lemma dweight_shift : forall X x d j, (j < dim)%nat -> dweight p (shift_x X d) (shift_x x d) j = dweight p X x j.
  Proof.
    intros X x d j Hj. unfold dweight. destruct (Nat.eq_dec j 0) as [->|K].
    - rewrite shift_0. unfold Derive. apply f_equal. apply Lim_ext. intros h. rewrite !shift_set0.
      replace (vget x 0 + d + h) with ((vget x 0 + h) + d) by ring. rewrite !set0_shift, !weight_shift. reflexivity.
    - rewrite shift_k by lia. apply Derive_ext. intros t. rewrite setk_shift by lia. apply weight_shift.
  Qed.
  Lemma carried_shift : forall v B x X d k, (k < dim)%nat -> carried p v B (shift_x x d) (shift_x X d) k = carried p v B x X k.
  Proof.
    intros v B x X d k Hk. unfold carried. destruct (Rlt_dec _ _); auto. do 2 f_equal. unfold sum_axes. apply Rsum_ext. intros j Hj. apply in_seq in Hj. f_equal.
    destruct (Nat.eq_dec j 0) as [->|K]; [rewrite !shift_0; ring|rewrite !shift_k by lia; reflexivity].
  Qed.
End Shift.

Lemma Rsum_seq : forall (f : nat -> R) n a, Rsum f (seq a n) = Rsum (fun i => f (a + i)%nat) (seq 0 n).
Proof.
  intros f n. induction n as [|n IH]; intros a; [reflexivity|]. rewrite !seq_S, !Rsum_app, IH. cbn [Rsum Nat.add]. reflexivity.
Qed.

Section Period.
  Context {G : Geo R} {GL : GeoLaws G}.
  Variable p : Par R.
  Hypothesis Hdx : 0 < dx p.
  Variable N : nat.
  Hypothesis HN8 : (8 <= N)%nat.
  Hypothesis HN : Lx p = INR N * dx p.
  Variables (af : nat) (axes : list (Axis R)).
  Hypothesis Ea : remeshFixed af p 4 = Ok axes.
  Hypothesis GO : GridOk p axes.
  Let N8 : 8 <= INR N.
  Proof. apply (le_INR 8) in HN8. cbn in HN8. lra. Qed.
  Let L8 : 8 * dx p <= Lx p.
  Proof. rewrite HN. nra. Qed.
  Definition period_axis : Axis R := mkAxis (map (fun i => INR i * dx p) (seq 0 N)) 0.
  Definition period : list TV := positions (match axes with [] => [] | _ :: r => period_axis :: r end).
  Lemma axes_split : exists a r, axes = a :: r /\ ax_co a = map (fun i => - 5 * dx p + INR i * dx p) (seq 0 (N + 11)).
  Proof.
    pose proof (go_dim _ _ GO) as L. pose proof dim0 as D0. destruct axes as [|a r] eqn:E; [cbn in L; lia|]. exists a, r. split; auto.
    pose proof (mapM_seq_nth _ _ _ _ 0%nat a Ea eq_refl) as Fa. cbn [remeshFixed_axis] in Fa. apply mk_axis_spec in Fa; auto. destruct Fa as (Ca & La & S1 & S2).
    apply lattice_co in La. rewrite ?nofZ_R in *. revert Ca S1 S2. numR. cbn [Z.add Pos.add]. intros Ca S1 S2. rewrite La, Ca. rewrite HN in S1, S2.
    assert (Q : lat_n a = (N + 11)%nat).
    { assert (INR N + 10 < INR (lat_n a)) by nra. assert (INR (lat_n a) < INR N + 12) by nra. apply INR_eq. rewrite plus_INR. cbn [INR].
      assert (Z.of_nat N + 10 < Z.of_nat (lat_n a))%Z by (apply lt_IZR; rewrite plus_IZR, <- !INR_IZR_INZ; lra).
      assert (Z.of_nat (lat_n a) < Z.of_nat N + 12)%Z by (apply lt_IZR; rewrite plus_IZR, <- !INR_IZR_INZ; lra).
      replace (lat_n a) with (N + 11)%nat by lia. rewrite plus_INR. cbn [INR]. lra. }
    rewrite Q. apply map_ext. intros i. ring.
  Qed.
  Definition three : list Z := [(-1)%Z; 0%Z; 1%Z].
  Lemma sum_line : forall F : R -> R, (forall c, c <= - 6 * dx p \/ Lx p + 6 * dx p <= c -> F c = 0) ->
    Rsum (fun i => F (- 5 * dx p + INR i * dx p)) (seq 0 (N + 11)) = Rsum (fun i => F (INR i * dx p - Lx p) + F (INR i * dx p) + F (INR i * dx p + Lx p)) (seq 0 N).
  Proof.
    intros F HF. rewrite !Rsum_plus.
    replace (N + 11)%nat with (5 + (N + 6))%nat by lia. rewrite seq_app, Rsum_app, seq_app, Rsum_app.
    assert (E1 : Rsum (fun i => F (INR i * dx p - Lx p)) (seq 0 N) = Rsum (fun i => F (- 5 * dx p + INR i * dx p)) (seq 0 5)).
    { replace N with ((N - 5) + 5)%nat at 1 by lia. rewrite seq_app, Rsum_app, Rsum_zero.
      - rewrite Rplus_0_l. rewrite Rsum_seq. apply Rsum_ext. intros i Hi. f_equal. rewrite HN. cbn [Nat.add]. rewrite plus_INR, minus_INR by lia. cbn [INR]. ring.
      - intros i Hi. apply in_seq in Hi. apply HF. left. rewrite HN. assert (INR i <= INR N - 6) by (replace (INR N - 6) with (INR (N - 6)) by (rewrite minus_INR by lia; cbn [INR]; ring); apply le_INR; lia). nra. }
    assert (E2 : Rsum (fun i => F (INR i * dx p)) (seq 0 N) = Rsum (fun i => F (- 5 * dx p + INR i * dx p)) (seq (0 + 5) N)).
    { rewrite (Rsum_seq _ N (0 + 5)). apply Rsum_ext. intros i Hi. f_equal. rewrite !plus_INR. cbn [INR]. ring. }
    assert (E3 : Rsum (fun i => F (INR i * dx p + Lx p)) (seq 0 N) = Rsum (fun i => F (- 5 * dx p + INR i * dx p)) (seq (0 + 5 + N) 6)).
    { replace N with (6 + (N - 6))%nat at 1 by lia. rewrite seq_app, Rsum_app, (Rsum_zero _ (seq (0 + 6) (N - 6))).
      - rewrite Rplus_0_r. rewrite (Rsum_seq _ 6 (0 + 5 + N)). apply Rsum_ext. intros i Hi. f_equal. rewrite HN, !plus_INR. cbn [INR]. ring.
      - intros i Hi. apply in_seq in Hi. apply HF. right. assert (6 <= INR i) by (replace 6 with (INR 6) by (cbn; lra); apply le_INR; lia). nra. }
    rewrite E1, E2, E3. ring.
  Qed.
  Lemma sum_axis : forall (a : Axis R) r (phi : TV -> R), Rsum phi (positions (a :: r)) = Rsum (fun c => Rsum (fun t => phi (vtab (fun k => nth k (c :: t) 0))) (lattice_points r)) (ax_co a).
  Proof. intros. unfold positions. rewrite Rsum_map. cbn [lattice_points]. rewrite Rsum_flat. apply Rsum_ext. intros c _. now rewrite Rsum_map. Qed.
  Lemma tab_0 : forall c t, vget (vtab (fun k => nth k (c :: t) 0) : TV) 0 = c.
  Proof. intros. rewrite vget_tab by apply dim0. reflexivity. Qed.
  Lemma tab_shift : forall c t d, shift_x (vtab (fun k => nth k (c :: t) 0) : TV) d = vtab (fun k => nth k ((c + d) :: t) 0).
  Proof. intros. apply vext. intros k Hk. destruct k as [|k]; [rewrite shift_0, !tab_0; reflexivity|]. rewrite shift_k, !vget_tab by lia. reflexivity. Qed.
  Lemma sum_pos : forall phi : TV -> R, (forall X, vget X 0 <= - 6 * dx p \/ Lx p + 6 * dx p <= vget X 0 -> phi X = 0) ->
    Rsum phi (positions axes) = Rsum (fun X => Rsum (fun k => phi (shift_x X (IZR k * Lx p))) three) period.
  Proof.
    intros phi Hp. destruct axes_split as (a & r & E & Ca). unfold period. rewrite E. rewrite !sum_axis, Ca, Rsum_map. cbn [period_axis ax_co]. rewrite Rsum_map.
    rewrite (sum_line (fun c => Rsum (fun t => phi (vtab (fun k => nth k (c :: t) 0))) (lattice_points r))).
    - apply Rsum_ext. intros i _. rewrite <- !Rsum_plus. apply Rsum_ext. intros t _. cbn [three Rsum]. rewrite !tab_shift.
      replace (INR i * dx p + -1 * Lx p) with (INR i * dx p - Lx p) by ring. replace (INR i * dx p + 0 * Lx p) with (INR i * dx p) by ring. replace (INR i * dx p + 1 * Lx p) with (INR i * dx p + Lx p) by ring. ring.
    - intros c Hc. apply Rsum_zero. intros t _. apply Hp. now rewrite tab_0.
  Qed.
  Lemma period_in : forall X, In X period -> In X (positions axes) /\ 0 <= vget X 0 < Lx p.
  Proof.
    intros X HX. destruct axes_split as (a & r & E & Ca). unfold period in HX. rewrite E in *. unfold positions in *. apply in_map_iff in HX. destruct HX as (cs & <- & Hc).
    cbn [lattice_points period_axis ax_co] in Hc. apply in_flat_map in Hc. destruct Hc as (c & Hc & Ht). apply in_map_iff in Ht. destruct Ht as (t & <- & Ht).
    apply in_map_iff in Hc. destruct Hc as (i & <- & Hi). apply in_seq in Hi. rewrite tab_0. split.
    - apply in_map_iff. eexists. split; [reflexivity|]. cbn [lattice_points]. apply in_flat_map. exists (INR i * dx p). split; [|apply in_map; exact Ht].
      rewrite Ca. apply in_map_iff. exists (i + 5)%nat. split; [rewrite plus_INR; cbn [INR]; ring|apply in_seq; lia].
    - split; [apply Rmult_le_pos; [apply pos_INR|lra]|]. rewrite HN. apply Rmult_lt_compat_r; auto. apply lt_INR. lia.
  Qed.

  (** A kernel: a function of a particle and a node that moves along with both and has a short range. *)
  Record kernel (Psi : P1 R -> TV -> R) : Prop := {
    ke_shift : forall q d X, Psi (moved d q) (shift_x X d) = Psi q X;
    ke_range : forall q X, 2 * dx p < Rabs (vget (q_x q) 0 - vget X 0) -> Psi q X = 0 }.
  Lemma ke_back : forall Psi, kernel Psi -> forall q d X, Psi (moved d q) X = Psi q (shift_x X (- d)).
  Proof. intros Psi K q d X. rewrite <- (ke_shift _ K q d (shift_x X (- d))), shift_shift. replace (- d + d) with 0 by ring. now rewrite shift_zero. Qed.
  Lemma copies_1 : forall (f : P1 R -> R) l, Rsum f (copies p 1 l) = Rsum (fun q => Rsum (fun k => f (moved (IZR k * Lx p) q)) three) l.
  Proof.
    intros f l. unfold copies. rewrite Rsum_flat. change (upto 1) with three. rewrite <- (Rsum_exch _ _ (fun k q => f (moved (IZR k * Lx p) q))).
    apply Rsum_ext. intros k _. now rewrite Rsum_map.
  Qed.
  Lemma copies_periodic : forall Psi l X k, kernel Psi -> (forall q, In q l -> 0 <= vget (q_x q) 0 < Lx p) -> 0 <= vget X 0 < Lx p -> In k three -> - 2 * dx p < vget X 0 + IZR k * Lx p < Lx p + 2 * dx p ->
    Rsum (fun q => Psi q (shift_x X (IZR k * Lx p))) (copies p 1 l) = Rsum (fun q => Psi q X) (copies p 1 l).
  Proof.
    intros Psi l X k K Hl HX Hk Hr. rewrite !copies_1. apply Rsum_ext. intros q Hq. specialize (Hl q Hq). cbn [three Rsum].
    assert (Z : forall d, 2 * dx p < Rabs (vget (q_x q) 0 - (vget X 0 + d)) -> Psi q (shift_x X d) = 0) by (intros d Hd; apply (ke_range _ K); rewrite shift_0; exact Hd).
    rewrite !(ke_back _ K), !shift_shift. destruct Hk as [<-|[<-|[<-|[]]]].
    - rewrite (Z (- 1 * Lx p + - (1 * Lx p))) by (unfold Rabs; destruct (Rcase_abs _); lra). rewrite (Z (- (-1 * Lx p))) by (unfold Rabs; destruct (Rcase_abs _); lra).
      replace (-1 * Lx p + - (-1 * Lx p)) with (- (0 * Lx p)) by ring. replace (-1 * Lx p + - (0 * Lx p)) with (- (1 * Lx p)) by ring. ring.
    - replace (0 * Lx p + - (-1 * Lx p)) with (- (-1 * Lx p)) by ring. replace (0 * Lx p + - (0 * Lx p)) with (- (0 * Lx p)) by ring. replace (0 * Lx p + - (1 * Lx p)) with (- (1 * Lx p)) by ring. ring.
    - rewrite (Z (1 * Lx p + - (-1 * Lx p))) by (unfold Rabs; destruct (Rcase_abs _); lra). rewrite (Z (- (1 * Lx p))) by (unfold Rabs; destruct (Rcase_abs _); lra).
      replace (1 * Lx p + - (1 * Lx p)) with (- (0 * Lx p)) by ring. replace (1 * Lx p + - (0 * Lx p)) with (- (-1 * Lx p)) by ring. ring.
  Qed.
  (** Sum over the particles of the box and all nodes = sum over the nodes of one period and all copies. *)
  Lemma exchange : forall Psi (V : TV -> R) l, kernel Psi -> (forall q, In q l -> 0 <= vget (q_x q) 0 < Lx p) ->
    (forall q X k, In q l -> In X period -> In k three -> Psi q (shift_x X (IZR k * Lx p)) <> 0 -> V (shift_x X (IZR k * Lx p)) = V X) ->
    Rsum (fun q => Rsum (fun X => Psi q X * V X) (positions axes)) l = Rsum (fun X => V X * Rsum (fun q => Psi q X) (copies p 1 l)) period.
  Proof.
    intros Psi V l K Hl HV. rewrite (Rsum_ext _ (fun q => Rsum (fun X => V X * Rsum (fun k => Psi q (shift_x X (IZR k * Lx p))) three) period)).
    - rewrite Rsum_exch. apply Rsum_ext. intros X HX. rewrite Rsum_scal. f_equal. rewrite copies_1. apply Rsum_ext. intros q Hq. cbn [three Rsum]. rewrite !(ke_back _ K).
      replace (- (-1 * Lx p)) with (1 * Lx p) by ring. replace (- (0 * Lx p)) with (0 * Lx p) by ring. replace (- (1 * Lx p)) with (-1 * Lx p) by ring. ring.
    - intros q Hq. rewrite sum_pos.
      + apply Rsum_ext. intros X HX. rewrite <- Rsum_scal. apply Rsum_ext. intros k Hk. destruct (Req_dec (Psi q (shift_x X (IZR k * Lx p))) 0) as [->|Z]; [ring|]. rewrite (HV q X k) by auto. ring.
      + intros X HX. rewrite (ke_range _ K); [ring|]. specialize (Hl q Hq). unfold Rabs. destruct (Rcase_abs _); lra.
  Qed.
End Period.
