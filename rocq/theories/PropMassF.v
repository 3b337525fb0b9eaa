(** * PropMassF: C88, mass on the grid in double precision, for every thread schedule. *)
From Coq Require Import ZArith Reals Lra Lia List Bool Floats.SpecFloat Permutation.
From Flocq Require Import Core BinarySingleNaN.
From Verif Require Import Num NumF NumR Tools Lin Types Remesh Transfer Sampling Spec SpecF SpecGridF SpecMassF ResProofs PlasticModels LinProofs GridProofs P2GProofs FloatBase FloatGrid FloatKernel FloatCont FloatPbc FloatSum ExSimF PropGridF PropGridLater PropPbcF.
Import ListNotations.
Local Open Scope R_scope.

Section Mass.
  Variable L : Libm.
  Hint Extern 0 (Num F) => exact (NumF L) : typeclass_instances.
  Context {G : Geo F}.
  Hypothesis HG : two_or_threeF G.
  Variable M : R.
  Variable p : Par F.
  Variable axes : list (Axis F).
  Variable P : Particles F.
  Variable n : nat.
  Hypothesis Hc : cloud_okF L M p (p_x P).
  Hypothesis Ha : axes_okF M p (p_x P) axes.
  Hypothesis Hp : (prodlen axes <= 4294967295)%Z.
  Hypothesis HC : consistent P n.
  Hypothesis Hs : spline p = Deg2.
  Let N := length (resizeGrid (NA := NumF L) axes).
  Let K := Nat.pow 4 dim.

  Lemma all_items : forall i, (i < n)%nat -> length (items_of L p axes P i) = K /\ (forall it, In it (items_of L p axes P i) -> item_ok N it) /\
    exists x, rd (p_x P) (Z.of_nat i) = Ok x /\ stencil (NA := NumF L) (base_p2g (NA := NumF L)) p axes x = Ok (items_of L p axes P i).
  Proof.
    intros i Hi. destruct (rd_some (p_x P) (Z.of_nat i)) as (x & Ex); [rewrite (co_x _ _ HC); lia|].
    assert (Ix : In x (p_x P)) by (apply rd_Ok in Ex; destruct Ex as (_ & Ex); now apply nth_error_In in Ex).
    destruct (axes_cover L G HG M p (p_x P) axes Hc Ha Hp x Ix) as (items & S1 & _ & S3 & S4).
    assert (E : items_of L p axes P i = items) by (unfold items_of; rewrite Ex, S1; reflexivity). rewrite E.
    destruct (axes_weights L G HG M p (p_x P) axes x items Hc Ha Hs Ix S1) as (W1 & _).
    split; [exact S3|]. split; [|exists x; auto]. intros it Hit. destruct (W1 it Hit). split; auto.
  Qed.
  Lemma weight_items : forall j, Rsum (fun i => Rsum (at_node L j) (items_of L p axes P i)) (seq 0 n) = weight_atF L p axes (p_x P) j.
  Proof.
    intros j. unfold weight_atF. rewrite (Rsum_nth_seq _ (vtab (fun _ => dx p)) _ (p_x P)), (co_x _ _ HC). apply Rsum_ext. intros i Hi. apply in_seq in Hi.
    destruct (all_items i ltac:(lia)) as (_ & _ & x & Ex & Es). apply rd_Ok in Ex. destruct Ex as (_ & Ex). rewrite Nat2Z.id in Ex. rewrite (nth_error_nth _ _ _ Ex), Es. reflexivity.
  Qed.
  Lemma weight_range : forall j, 0 <= weight_atF L p axes (p_x P) j <= INR (n * K).
  Proof.
    intros j. rewrite <- weight_items. split.
    - apply Rsum_nonneg. intros i Hi. apply in_seq in Hi. apply Rsum_nonneg. intros it Hit. apply (at_node_bounds L N). apply (all_items i); auto; lia.
    - rewrite mult_INR. replace (INR n) with (INR (length (seq 0 n))) by now rewrite seq_length. rewrite <- Rsum_const. apply Rsum_le. intros i Hi. apply in_seq in Hi. destruct (all_items i ltac:(lia)) as (Lk & I & _).
      rewrite <- Lk, <- (Rmult_1_r (INR _)), <- Rsum_const. apply Rsum_le. intros it Hit. apply (at_node_bounds L N). auto.
  Qed.
  Lemma weight_total : Rabs (Rsum (weight_atF L p axes (p_x P)) (seq 0 N) - INR n) <= 69 * bpow radix2 (-52) * (M + 8) ^ 2 * INR n.
  Proof.
    rewrite (Rsum_ext _ (fun j => Rsum (fun i => Rsum (at_node L j) (items_of L p axes P i)) (seq 0 n))) by (intros; symmetry; apply weight_items).
    rewrite Rsum_swap.
    assert (B : Rabs (Rsum (fun i => Rsum (fun j => Rsum (at_node L j) (items_of L p axes P i)) (seq 0 N)) (seq 0 n) - Rsum (fun _ => 1) (seq 0 n)) <= INR (length (seq 0 n)) * (69 * bpow radix2 (-52) * (M + 8) ^ 2)).
    2:{ rewrite Rsum_const, seq_length, Rmult_1_r in B. eapply Rle_trans; [exact B|]. lra. }
    apply Rsum_close. intros i Hi. apply in_seq in Hi. destruct (all_items i ltac:(lia)) as (Lk & I & x & Ex & Es). rewrite Rsum_swap.
    assert (Ix : In x (p_x P)) by (apply rd_Ok in Ex; destruct Ex as (_ & Ex); now apply nth_error_In in Ex).
    destruct (axes_weights L G HG M p (p_x P) axes x _ Hc Ha Hs Ix Es) as (_ & W). set (items := items_of L p axes P i) in *.
    assert (C : Rabs (Rsum (fun it => Rsum (fun j => at_node L j it) (seq 0 N)) items - Rsum (fun it => fval (it_w it)) items) <= INR (length items) * (3 * wm)).
    { apply Rsum_close. intros it Hit. destruct (I it Hit) as (Fw & Bw & Ii). unfold at_node. destruct (nltb w_min (it_w it)) eqn:Ew.
      - rewrite (Rsum_ext _ (fun j => if Nat.eqb (Z.to_nat (it_idx it)) j then fval (it_w it) else 0)).
        + rewrite Rsum_seq_pick by lia. rewrite Rminus_diag_eq, Rabs_R0 by auto. unfold wm. lra.
        + intros j _. rewrite Bool.andb_true_r. destruct (Z.eqb_spec (it_idx it) (Z.of_nat j)), (Nat.eqb_spec (Z.to_nat (it_idx it)) j); auto; lia.
      - rewrite Rsum_zero by (intros j _; now rewrite Bool.andb_false_r). destruct (w_min_F L) as (Fm & Bm). change (nltb w_min (it_w it)) with (SFltb (@w_min F (NumF L)) (it_w it)) in Ew. rewrite flt_spec in Ew by auto.
        destruct (Rlt_bool_spec (fval (@w_min F (NumF L))) (fval (it_w it))); [discriminate|]. apply Rabs_le. lra. }
    rewrite Lk in C. assert (Kb : INR K <= 64) by (unfold K; replace 64 with (INR 64) by (cbn; lra); apply le_INR; destruct HG as [-> | ->]; cbn; lia).
    pose proof (cl_M L M p _ Hc) as HM. assert (INR K * (3 * wm) <= bpow radix2 (-52) * (M + 8) ^ 2).
    { apply Rle_trans with (64 * (3 * wm)); [apply Rmult_le_compat_r; auto; unfold wm; lra|]. rewrite <- eps_bpow. apply Rle_trans with (eps * 81); [unfold wm, eps; lra|]. apply Rmult_le_compat_l; [unfold eps; lra|nra]. }
    apply Rabs_le_inv in C, W. apply Rabs_le. lra.
  Qed.

  Hypothesis Hm : mass_okF p.
  Lemma finish_mass : forall c m S, acc c m S -> INR c * eps <= 1/2 -> S <= bpow radix2 52 ->
    let v := nmul m (particle_mass p) in ffin v /\ 0 <= fval v /\ Rabs (fval v - fval (particle_mass p) * S) <= eps * (INR c + 2) * (fval (particle_mass p) * S).
  Proof.
    intros c m S (Fm & Z & E) Hcc HS. cbv zeta. change (nmul m (particle_mass p)) with (SFmul fprec femax m (particle_mass p)). destruct Hm as (Fp & Bp). set (q := fval (particle_mass p)) in *.
    assert (Q0 : 0 < q) by (apply Rlt_le_trans with (bpow radix2 (-900)); [apply bpow_gt_0|lra]). pose proof eps_pos as E0. pose proof (pos_INR c) as C0.
    assert (B : 0 <= S /\ S / 2 <= fval m <= 3/2 * S) by (assert (0 <= S) by (destruct Z as [->|?]; unfold wm in *; lra); split; auto; apply Rabs_le_inv in E; nra). destruct B as (S0 & B).
    assert (Bq : fval m * q <= bpow radix2 1000).
    { apply Rle_trans with (bpow radix2 53 * bpow radix2 900); [|rewrite <- bpow_plus; apply bpow_le; lia]. apply Rmult_le_compat; try lra. apply Rle_trans with (2 * bpow radix2 52); [lra|]. change 53%Z with (1 + 52)%Z. rewrite (bpow_plus radix2 1 52). right. reflexivity. }
    assert (Pq : 0 <= fval m * q) by (apply Rmult_le_pos; lra).
    destruct (fmul_spec m (particle_mass p) Fm Fp) as (A1 & A2); [fold q; apply big with (fval m * q); auto; rewrite Rabs_pos_eq; lra|]. fold q in A2. rewrite A2. split; auto.
    split; [rewrite <- (round_0 radix2 fx ZnearestE); apply rnd_mono; auto|].
    destruct Z as [->|Z].
    - replace (fval m) with 0 by lra. rewrite Rmult_0_l. unfold rnd. rewrite round_0 by apply valid_rnd_N. rewrite !Rmult_0_r, Rminus_diag_eq, Rabs_R0 by auto. lra.
    - assert (R1 : Rabs (rnd (fval m * q) - fval m * q) <= eps * (fval m * q)).
      { apply rnd_rel; [rewrite Rabs_pos_eq; lra|]. apply Rle_trans with (bpow radix2 (-86) * bpow radix2 (-900)); [rewrite <- bpow_plus; apply bpow_le; lia|]. apply Rmult_le_compat; try apply bpow_ge_0; try lra.
        apply Rle_trans with (wm / 2); [|lra]. replace (bpow radix2 (-86)) with (/ 77371252455336267181195264) by (cbn; lra). unfold wm. lra. }
      replace (rnd (fval m * q) - q * S) with ((rnd (fval m * q) - fval m * q) + (fval m - S) * q) by ring. eapply Rle_trans; [apply Rabs_triang|]. rewrite Rabs_mult, (Rabs_pos_eq q) by lra.
      assert (Rabs (fval m - S) * q <= INR c * eps * S * q) by (apply Rmult_le_compat_r; lra). assert (eps * (fval m * q) <= eps * (2 * S * q)) by (apply Rmult_le_compat_l; [lra|apply Rmult_le_compat_r; lra]). lra.
  Qed.
  Lemma grid_masses : nodal_masses_okF L p axes P n.
  Proof.
    intros sched Hsch c Hcc. assert (He : INR c * eps <= 1/2).
    { apply Rle_trans with (bpow radix2 51 * eps); [apply Rmult_le_compat_r; [unfold eps; lra|auto]|]. rewrite eps_bpow, <- bpow_plus. cbn. lra. }
    destruct (accumulate_F L p N axes P n HC K all_items sched Hsch) as (g & Eg & Lg & Ig); [fold K in c; unfold c in He; lra|].
    assert (Er : resizeGrid (NA := NumF L) axes = repeat zero_node N) by (unfold N, resizeGrid; now rewrite repeat_length).
    exists (map (p2g_finish_node p) g). unfold p2g. rewrite Er, Eg. cbn [bind]. split; [reflexivity|]. split; [rewrite map_length, repeat_length; auto|].
    intros j nd Hj. rewrite nth_error_map in Hj. destruct (nth_error g j) as [nd0|] eqn:E0; [|discriminate]. cbn [option_map] in Hj. injection Hj as <-.
    cbv zeta. rewrite <- eps_bpow. cbn [p2g_finish_node nd_m]. specialize (Ig j nd0 E0). cbv beta in Ig. rewrite weight_items in Ig. apply finish_mass; auto.
    eapply Rle_trans; [apply weight_range|]. apply Rle_trans with (INR c); [apply le_INR; unfold c; fold K; lia|]. eapply Rle_trans; [exact Hcc|]. apply bpow_le. lia.
  Qed.
  Lemma grid_total : forall sched nodes, thread_schedule sched n -> let c := (n * Nat.pow 4 dim + length sched)%nat in INR c <= bpow radix2 51 ->
    p2g p axes P sched (resizeGrid axes) = Ok nodes -> total_mass_okF p n nodes (bpow radix2 (-52) * (69 * (M + 8) ^ 2 + 2 * (INR c + 2))).
  Proof.
    intros sched nodes Hsch c Hcc Hg. destruct (grid_masses sched Hsch Hcc) as (nodes' & Eg & Ln & Kn). rewrite Eg in Hg. apply Ok_inj in Hg. subst nodes'. fold N in Ln. fold c in Kn.
    unfold total_mass_okF. destruct Hm as (Fp & Bp). cbv zeta in Kn |- *. rewrite <- eps_bpow in *. set (q := fval (particle_mass p)) in *.
    assert (Q0 : 0 < q) by (apply Rlt_le_trans with (bpow radix2 (-900)); [apply bpow_gt_0|lra]). pose proof eps_pos as E0. pose proof (pos_INR c) as C0. pose proof (pos_INR n) as N0.
    rewrite (Rsum_nth_seq _ zero_node _ nodes), Ln. set (W := weight_atF L p axes (p_x P)) in *. set (d := eps * (INR c + 2)) in *.
    assert (D : Rabs (Rsum (fun j => fval (nd_m (nth j nodes zero_node))) (seq 0 N) - Rsum (fun j => q * W j) (seq 0 N)) <= Rsum (fun j => d * (q * W j)) (seq 0 N)).
    { assert (T : forall l, (forall j, In j l -> (j < N)%nat) -> Rabs (Rsum (fun j => fval (nd_m (nth j nodes zero_node))) l - Rsum (fun j => q * W j) l) <= Rsum (fun j => d * (q * W j)) l).
      { induction l as [|j l IH]; intros Hl; cbn [Rsum]; [rewrite Rminus_diag_eq, Rabs_R0 by auto; lra|]. specialize (IH (fun i Hi => Hl i (or_intror Hi))).
        destruct (nth_error nodes j) as [nd|] eqn:En; [|apply nth_error_None in En; specialize (Hl j (or_introl eq_refl)); lia]. rewrite (nth_error_nth _ _ _ En). destruct (Kn j nd En) as (_ & _ & B).
        apply Rabs_le_inv in B, IH. apply Rabs_le. lra. }
      apply T. intros j Hj. apply in_seq in Hj. lia. }
    rewrite !Rsum_scal in D. pose proof weight_total as T. fold W in T. rewrite <- eps_bpow in T. set (s := Rsum W (seq 0 N)) in *.
    assert (HM := cl_M L M p _ Hc). assert (E1 : 69 * eps * (M + 8) ^ 2 <= 1) by (unfold eps; nra).
    assert (T2 : s <= 2 * INR n) by (apply Rabs_le_inv in T; nra). assert (D0 : 0 <= d) by (unfold d; apply Rmult_le_pos; lra).
    assert (D1 : d * (q * s) <= d * (q * (2 * INR n))) by (apply Rmult_le_compat_l; auto; apply Rmult_le_compat_l; lra).
    assert (T3 : Rabs (q * s - q * INR n) <= q * (69 * eps * (M + 8) ^ 2 * INR n)).
    { replace (q * s - q * INR n) with (q * (s - INR n)) by ring. rewrite Rabs_mult, (Rabs_pos_eq q) by lra. apply Rmult_le_compat_l; lra. }
    replace (INR n * q) with (q * INR n) by ring. apply Rabs_le_inv in D, T3. apply Rabs_le. unfold d in *. lra.
  Qed.
End Mass.

(** On the first grid. *)
Theorem C88_first_grid : forall (L : Libm) (G : Geo F), two_or_threeF G ->
  forall (af : nat) (M : R) (p : Par F) (P : Particles F) (n : nat) am, let NF := NumF L in
  cloud_okF L M p (p_x P) -> consistent P n -> spline p = Deg2 -> mass_okF p ->
  remeshFixedInit af p 2 (p_x P) = Ok am -> (prodlen (map fst am) <= 4294967295)%Z ->
  nodal_masses_okF L p (map fst am) P n /\
  forall sched nodes, thread_schedule sched n -> let c := (n * Nat.pow 4 dim + length sched)%nat in INR c <= bpow radix2 51 ->
    p2g p (map fst am) P sched (resizeGrid (map fst am)) = Ok nodes ->
    total_mass_okF p n nodes (bpow radix2 (-52) * (69 * (M + 8) ^ 2 + 2 * (INR c + 2))).
Proof.
  intros L G HG af M p P n am NF Hc HC Hs Hm H Hp. unfold NF in *. clear NF. pose proof (init_axes L G af M p (p_x P) am Hc H) as Ha.
  split; [exact (grid_masses L HG M p _ P n Hc Ha Hp HC Hs Hm)|]. intros sched nodes Hsch Hcc Hg. exact (grid_total L HG M p _ P n Hc Ha Hp HC Hs Hm sched nodes Hsch Hcc Hg).
Qed.
(** On later grids, with the exception of [C86_later_grids_cover_partial]. *)
Theorem C88_later_grids_partial : forall (L : Libm) (G : Geo F), two_or_threeF G ->
  forall (af af' : nat) (M : R) (p : Par F) (xs0 : list TV) (P : Particles F) (n : nat) am axes, let NF := NumF L in
  cloud_okF L M p xs0 -> cloud_okF L M p (p_x P) -> fval (dx p) <= 1048576 -> consistent P n -> spline p = Deg2 -> mass_okF p ->
  remeshFixedInit af p 2 xs0 = Ok am -> remeshFixedCont af' p (p_x P) (map snd am) = Ok axes -> (prodlen axes <= 4294967295)%Z ->
  (forall x k m, In x (p_x P) -> nth_error (map snd am) k = Some m -> off_cell_edgesF M p m (vget x k)) ->
  nodal_masses_okF L p axes P n /\
  forall sched nodes, thread_schedule sched n -> let c := (n * Nat.pow 4 dim + length sched)%nat in INR c <= bpow radix2 51 ->
    p2g p axes P sched (resizeGrid axes) = Ok nodes -> total_mass_okF p n nodes (bpow radix2 (-52) * (69 * (M + 8) ^ 2 + 2 * (INR c + 2))).
Proof.
  intros L G HG af af' M p xs0 P n am axes NF Hc0 Hc Hd1 HC Hs Hm H0 H Hp Ho. unfold NF in *. clear NF.
  assert (Ha : axes_okF M p (p_x P) axes) by (eapply cont_axes; [exact Hc0| | | | |]; eauto).
  split; [exact (grid_masses L HG M p _ P n Hc Ha Hp HC Hs Hm)|]. intros sched nodes Hsch Hcc Hg. exact (grid_total L HG M p _ P n Hc Ha Hp HC Hs Hm sched nodes Hsch Hcc Hg).
Qed.
(** On the grid of a periodic simulation; [P] holds the particles and their ghosts. *)
Theorem C88_periodic_partial : forall (L : Libm) (G : Geo F), two_or_threeF G ->
  forall (af : nat) (M : R) (p : Par F) (P : Particles F) (n : nat) axes, let NF := NumF L in
  cloud_okF L M p (p_x P) -> box_okF M p -> (forall x, In x (p_x P) -> near_boxF M p x) -> consistent P n -> spline p = Deg2 -> mass_okF p ->
  remeshFixed af p 4 = Ok axes -> (prodlen axes <= 4294967295)%Z ->
  nodal_masses_okF L p axes P n /\
  forall sched nodes, thread_schedule sched n -> let c := (n * Nat.pow 4 dim + length sched)%nat in INR c <= bpow radix2 51 ->
    p2g p axes P sched (resizeGrid axes) = Ok nodes -> total_mass_okF p n nodes (bpow radix2 (-52) * (69 * (M + 8) ^ 2 + 2 * (INR c + 2))).
Proof.
  intros L G HG af M p P n axes NF Hc Hb Hn HC Hs Hm H Hp. unfold NF in *. clear NF. pose proof (fixed_axes L G HG af M p (p_x P) axes Hc Hb Hn H) as Ha.
  split; [exact (grid_masses L HG M p _ P n Hc Ha Hp HC Hs Hm)|]. intros sched nodes Hsch Hcc Hg. exact (grid_total L HG M p _ P n Hc Ha Hp HC Hs Hm sched nodes Hsch Hcc Hg).
Qed.
(** Two runs of the same transfer, with any two schedules, give nodal masses that differ by rounding only;
    a node is empty in one exactly when it is empty in the other. *)
Theorem C88_schedules : forall (L : Libm) (G : Geo F) (p : Par F) axes (P : Particles F) (n : nat) s1 s2 g1 g2 j a b, let NF := NumF L in
  nodal_masses_okF L p axes P n -> 0 < fval (particle_mass p) ->
  thread_schedule s1 n -> thread_schedule s2 n ->
  let c := (n * Nat.pow 4 dim + Nat.max (length s1) (length s2))%nat in INR c + 4 <= bpow radix2 49 ->
  p2g p axes P s1 (resizeGrid axes) = Ok g1 -> p2g p axes P s2 (resizeGrid axes) = Ok g2 ->
  nth_error g1 j = Some a -> nth_error g2 j = Some b ->
  Rabs (fval (nd_m a) - fval (nd_m b)) <= bpow radix2 (-52) * (3 * (INR c + 2)) * fval (nd_m b) /\ (fval (nd_m a) = 0 <-> fval (nd_m b) = 0).
Proof.
  intros L G p axes P n s1 s2 g1 g2 j a b NF Hn Hq Hs1 Hs2 c Hc E1 E2 Ja Jb. unfold NF in *. clear NF.
  assert (C1 : INR (n * Nat.pow 4 dim + length s1) <= INR c) by (apply le_INR; unfold c; lia). assert (C2 : INR (n * Nat.pow 4 dim + length s2) <= INR c) by (apply le_INR; unfold c; lia).
  assert (B51 : bpow radix2 49 <= bpow radix2 51) by (apply bpow_le; lia).
  destruct (Hn s1 Hs1 ltac:(lra)) as (h1 & F1 & _ & K1). rewrite F1 in E1. apply Ok_inj in E1. subst h1. destruct (Hn s2 Hs2 ltac:(lra)) as (h2 & F2 & _ & K2). rewrite F2 in E2. apply Ok_inj in E2. subst h2.
  destruct (K1 j a Ja) as (_ & A0 & A1). destruct (K2 j b Jb) as (_ & B0 & B1). cbv zeta in A1, B1. set (m := fval (particle_mass p) * weight_atF L p axes (p_x P) j) in *.
  rewrite <- eps_bpow in *. pose proof eps_pos as E0. pose proof (pos_INR c) as C0.
  assert (Ee : eps * (INR c + 2) <= 1/8) by (apply Rle_trans with (eps * bpow radix2 49); [apply Rmult_le_compat_l; lra|rewrite eps_bpow, <- bpow_plus; cbn; lra]).
  set (d := eps * (INR c + 2)) in *. assert (D0 : 0 <= d) by (unfold d; nra).
  assert (M0 : 0 <= m).
  { destruct (Rle_lt_dec 0 m) as [?|C]; auto. exfalso. pose proof (Rabs_pos (fval (nd_m a) - m)). assert (0 < eps * (INR (n * Nat.pow 4 dim + length s1) + 2)) by (apply Rmult_lt_0_compat; [auto|pose proof (pos_INR (n * Nat.pow 4 dim + length s1)); lra]). nra. }
  assert (A2 : Rabs (fval (nd_m a) - m) <= d * m) by (eapply Rle_trans; [exact A1|]; apply Rmult_le_compat_r; auto; apply Rmult_le_compat_l; lra).
  assert (B2 : Rabs (fval (nd_m b) - m) <= d * m) by (eapply Rle_trans; [exact B1|]; apply Rmult_le_compat_r; auto; apply Rmult_le_compat_l; lra).
  apply Rabs_le_inv in A2, B2. assert (d * m <= 1/8 * m) by (apply Rmult_le_compat_r; auto).
  assert (Q : d * (7/8 * m) <= d * fval (nd_m b)) by (apply Rmult_le_compat_l; lra). split.
  - replace (eps * (3 * (INR c + 2))) with (3 * d) by (unfold d; ring). assert (0 <= d * m) by (apply Rmult_le_pos; auto). apply Rabs_le. lra.
  - split; intros Z; lra.
Qed.

(** ** A case that meets the hypotheses: the two particles of C85, on two threads. *)
Section Ex.
  Local Instance nfm : Num F := NumF ExSimF.libm0.
  Local Existing Instance Geo2.
  Definition massF_P : @Particles F (Geo2 F) :=
    mkParticles gridF_xs [vzero; vzero] [vzero; vzero] [vzero; vzero] [zero_hist; zero_hist] [mident; mident] [mzero; mzero] [mzero; mzero].
  Definition massF_sched : list (list nat) := [[1%nat]; [0%nat]].
  Lemma massF_ok : cloud_okF ExSimF.libm0 8 gridF_p (p_x massF_P) /\ consistent massF_P 2 /\ spline gridF_p = Deg2 /\ mass_okF gridF_p /\ thread_schedule massF_sched 2.
  Proof.
    split; [apply gridF_cloud|]. split; [constructor; reflexivity|]. split; [reflexivity|]. split.
    - unfold mass_okF. change (particle_mass gridF_p) with (fofZ 1). destruct (fofZ_spec 1 ltac:(lia)) as (F1 & ->). split; auto. change 1 with (bpow radix2 0). split; apply bpow_le; lia.
    - unfold thread_schedule, massF_sched. cbn. apply perm_swap.
  Qed.
  Example C88_ex : exists am nodes, remeshFixedInit 20 gridF_p 2 gridF_xs = Ok am /\ p2g gridF_p (map fst am) massF_P massF_sched (resizeGrid (map fst am)) = Ok nodes /\
    (exists nd, In nd nodes /\ 1/4 < fval (nd_m nd)) /\ Rabs (Rsum (fun nd => fval (nd_m nd)) nodes - 2) <= 1/10000000000.
  Proof.
    assert (K : exists am, remeshFixedInit 20 gridF_p 2 gridF_xs = Ok am /\ ((prodlen (map fst am) <=? 4294967295)%Z && match p2g gridF_p (map fst am) massF_P massF_sched (resizeGrid (map fst am)) with Ok nodes => existsb (fun nd => SFltb (fofQ 1 4) (nd_m nd) && BinarySingleNaN.is_finite_SF (nd_m nd) && valid_binary 53 1024 (nd_m nd)) nodes | _ => false end)%bool = true) by (apply ok_intro; vm_compute; reflexivity).
    destruct K as (am & E & K). apply andb_true_iff in K. destruct K as (Kp & K). apply Z.leb_le in Kp. apply ok_intro in K. destruct K as (nodes & Eg & K). exists am, nodes. do 2 (split; [assumption|]).
    destruct massF_ok as (Hc & HC & Hs & Hm & Hsch). split.
    - apply existsb_exists in K. destruct K as (nd & Hi & K). exists nd. split; auto. apply andb_true_iff in K. destruct K as (K & K3). apply andb_true_iff in K. destruct K as (K1 & K2).
      assert (Fn : ffin (nd_m nd)) by (split; assumption). assert (Q : fofQ 1 4 = S754_finite false 4503599627370496 (-54)) by (vm_compute; reflexivity). rewrite Q in K1. rewrite flt_spec in K1; [|split; reflexivity|exact Fn].
      rewrite fval_fin in K1. replace (bpow radix2 (-54)) with (/ 18014398509481984) in K1 by (cbn; lra). cbn [sfZ] in K1. destruct (Rlt_bool_spec (4503599627370496 * / 18014398509481984) (fval (nd_m nd))); [eapply Rle_lt_trans; [|eassumption]; lra|discriminate].
    - destruct (C88_first_grid ExSimF.libm0 (Geo2 F) (or_introl eq_refl) 20 8 gridF_p massF_P 2 am Hc HC Hs Hm E Kp) as (_ & T). specialize (T massF_sched nodes Hsch).
      assert (C : INR (2 * Nat.pow 4 (@dim F (Geo2 F)) + length massF_sched) = 34) by (cbn; lra). cbv zeta in T. rewrite C in T. specialize (T ltac:(apply Rle_trans with (bpow radix2 10); [cbn; lra|apply bpow_le; lia]) Eg).
      unfold total_mass_okF in T. cbv zeta in T. change (particle_mass gridF_p) with (fofZ 1) in T. rewrite (proj2 (fofZ_spec 1 ltac:(lia))) in T. replace (INR 2 * 1) with 2 in T by (cbn; lra). eapply Rle_trans; [exact T|]. rewrite <- eps_bpow. unfold eps. lra.
  Qed.
End Ex.
Print Assumptions C88_first_grid.
Print Assumptions C88_later_grids_partial.
Print Assumptions C88_periodic_partial.
Print Assumptions C88_schedules.
