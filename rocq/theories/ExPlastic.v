(** * ExPlastic: concrete stress updates that meet the hypotheses of C34-C41, and the refuted part
    of C37. *)
From Coq Require Import Reals ZArith Lra Lia List Bool Psatz.
From Verif Require Import Num NumR Tools Lin Types Transfer Rma Plastic Spec SpecPlastic SvdExist LinProofs PlasticProofs RmaProofs PlasticModels PlasticGlue StepProofs Step SpecStep SpecMech SpecMaterial Examples ExStep ExMech MaterialStep StressProofs PropStep PropPlastic PropRma PropMaterial PropStress PropDefined.
Import ListNotations.
Local Open Scope R_scope.

(** 2D, E = 1000, nu = 3/10 (mu = 5000/13, K = 12500/13), q_prefac = 1. *)
Definition pl_par (pm : PlasticModel) (hl : HardeningLaw) (M c x n : R) (dl mibf : bool) : @Par R (Geo2 R) :=
  {| spline := Deg2; end_frame := 1; use_pbc := false; change_pos := false; gravity_special := false;
     save_sim := true; save_grid := false; use_mibf := mibf; use_musl := false;
     grid_ref := vtab (fun _ => 20000000000); gravity0 := vzero;
     min_dt := 1/100000000000000; fps := 1; cfl := 1/2; cfl_elastic := 1/2; flip_ratio := 1;
     rho := 1000; gravity_time := 0; Lx := 1; Ly := 1; Lz := 1;
     particle_mass := 1; particle_volume := 1; dx := 1;
     elastic_model := Hencky; plastic_model := pm; hardening_law := hl;
     use_pradhana := true; young := 1000; nu := 3/10; stress_tolerance := 1/100000; xi := x;
     q_max := 100; q_min := 100; p_min := -1000;
     Mfric := M; q_cohesion := c; visc_exponent := n; visc_time := 1; use_dl := dl;
     beta := 0; p0 := 1000; rho_s := 2500; grain_diameter := 1/1000; I_ref := 279/1000;
     mu_1 := 38/100; mu_2 := 64/100; q_prefac := 1; objects := [] |}.
Lemma pl_elastic : forall pm hl M c x n dl mb, elastic (pl_par pm hl M c x n dl mb).
Proof. intros. unfold elastic, pl_par; cbn [young nu q_prefac]. lra. Qed.
Lemma pl_sane : forall pm hl M c x n dl mb, 0 < M -> 0 <= c -> 0 <= x -> 0 < n -> sane (pl_par pm hl M c x n dl mb).
Proof. intros. unfold pl_par. constructor; cbn; lra. Qed.
Lemma pl_mu : forall pm hl M c x n dl mb, mu (pl_par pm hl M c x n dl mb) = 5000/13.
Proof. intros. unfold mu, pl_par; cbn [young nu]. rewrite ?nofZ_R; numR. field. Qed.
Lemma pl_K : forall pm hl M c x n dl mb, bulkK (pl_par pm hl M c x n dl mb) = 12500/13.
Proof. intros. rewrite bulk_R. unfold lambda, mu, pl_par; cbn [young nu]. rewrite ?nofZ_R; numR. cbn. field. Qed.

(** Principal stretches exp a and exp b. *)
Definition stretch (a b : R) : @TM R (Geo2 R) := mkM2 (exp a) 0 0 (exp b).
Definition h0 : Hist R := mkHist 0 0 0 0 0 0.
Lemma e_4 : exp 1 < 4. Proof. pose proof exp_le_3. lra. Qed.
Lemma stretch_big : forall a, -1 <= a -> 1/10000 <= exp a.
Proof.
  intros a H. apply Rle_trans with (exp (-1)); [|destruct H as [H| <-]; [apply Rlt_le, exp_increasing; auto|lra]].
  replace (-1) with (- (1)) by ring. rewrite exp_Ropp. pose proof e_4. pose proof (exp_pos 1). apply Rle_trans with (/ 4); [lra|]. apply Rinv_le_contravar; lra.
Qed.
Lemma stretch_trial : forall p a b, elastic p -> -1 <= a -> -1 <= b -> let S := trial_stress svdx p (stretch a b) in
  pressure S = - bulkK p * (a + b) /\ shear (q_prefac p) S = q_prefac p * (2 * mu p) * sqrt ((a - b)² / 2).
Proof.
  intros p a b El Ha Hb S. destruct (svdx (stretch a b)) as ((U, s), V) eqn:E. pose proof E as E'.
  unfold stretch in E'. rewrite svdx_diag in E' by (apply Rlt_le, exp_pos). inj3 E'.
  destruct (trial_pq svdx p El svdx_ok _ _ _ _ E) as (T & EP & EQ & _ & _). subst S. rewrite EP, EQ. unfold P, Q.
  destruct (trial_spec (GL := geolaws _ (or_introl eq_refl)) (mkV2 (exp a) (exp b) : @TV R (Geo2 R))) as (A & B & C & _); [intros [|k] _; cbn; apply Rlt_le, exp_pos|].
  rewrite B, C, emu_R. assert (L : log_strain (mkV2 (exp a) (exp b) : @TV R (Geo2 R)) = mkV2 a b).
  { unfold log_strain. cbn. rewrite !Rmax_left, !ln_exp by now apply stretch_big. reflexivity. }
  rewrite L. split; [cbn; numR; ring|]. unfold vnorm, vsqnorm, vdot, dev. cbn. numR. f_equal; [ring|]. f_equal. unfold Rsqr. rewrite ?nofZ_R. field.
Qed.
Lemma sqrt_half : forall x, 0 <= x -> x / 2 <= sqrt (x² / 2) <= x.
Proof.
  intros x H. unfold Rsqr. split.
  - rewrite <- (sqrt_square (x / 2)) by lra. apply sqrt_le_1_alt. nra.
  - apply Rle_trans with (sqrt (x * x)); [apply sqrt_le_1_alt; nra|rewrite sqrt_square; lra].
Qed.
(** With q_prefac 1 the trial shear stress is between mu |a-b| and 2 mu |a-b|. *)
Lemma stretch_q : forall pm hl M c x n dl mb a b, -1 <= b -> b <= a -> let p := pl_par pm hl M c x n dl mb in let S := trial_stress svdx p (stretch a b) in
  pressure S = - (12500/13) * (a + b) /\ 5000/13 * (a - b) <= shear (q_prefac p) S <= 10000/13 * (a - b).
Proof.
  intros pm hl M c x n dl mb a b Hb Ha p S. destruct (stretch_trial p a b (pl_elastic _ _ _ _ _ _ _ _) ltac:(lra) Hb) as (A & B). subst S p. rewrite A, B, pl_mu, pl_K. cbn [q_prefac pl_par].
  pose proof (sqrt_half (a - b) ltac:(lra)). split; lra.
Qed.
(** Settings that do not read uninitialised values. *)
Definition fine (pm : PlasticModel) (hl : HardeningLaw) (mibf : bool) : Prop :=
  ~ (hl = NoHard /\ (pm = MCCMui \/ ((pm = MCC \/ pm = MCCVisc) /\ mibf = true))).
Lemma pl_updated : forall uabs pm hl M c x n dl mb a b h, 0 < M -> 0 <= c -> 0 <= x -> 0 < n -> fine pm hl mb ->
  exists o, updated svdx uabs (pl_par pm hl M c x n dl mb) 1 (stretch a b) mzero h o.
Proof.
  intros uabs pm hl M c x n dl mb a b h H1 H2 H3 H4 Hm.
  destruct (C46_defined_partial _ _ _ svdx uabs (pl_par pm hl M c x n dl mb) 1 (stretch a b) mzero h Hm) as (o & E).
  exists o. split; [apply svdx_ok|]. split; [apply pl_elastic|]. split; [now apply pl_sane|]. split; [reflexivity|]. split; [lra|exact E].
Qed.
Lemma stretch_ok : forall a b, -1 <= a -> -1 <= b -> stretches_ok svdx (stretch a b).
Proof.
  intros a b Ha Hb U s V E k Hk. unfold stretch in E. rewrite svdx_diag in E by (apply Rlt_le, exp_pos). inj3 E. destruct k; cbn; now apply stretch_big.
Qed.
Ltac fin := unfold fine; intros (? & [?|([?|?] & ?)]); discriminate.

(** ** C34: an elastic state (q < 77) and a yielding one (q > 384), with q_max = 100. *)
Example C34_ex : forall uabs, let p := pl_par VM NoHard 1 0 0 1 false false in
  (exists o, updated svdx uabs p 1 (stretch (1/10) 0) mzero h0 o /\ let S := trial_stress svdx p (stretch (1/10) 0) in elastic_domain p h0 (pressure S) (shear (q_prefac p) S)) /\
  (exists o, updated svdx uabs p 1 (stretch 1 0) mzero h0 o /\ let S := trial_stress svdx p (stretch 1 0) in
     ~ elastic_domain p h0 (pressure S) (shear (q_prefac p) S) /\ ~ excepted p h0 (pressure S)).
Proof.
  intros uabs p. split.
  - destruct (pl_updated uabs VM NoHard 1 0 0 1 false false (1/10) 0 h0) as (o & H); try lra; [fin|]. exists o. split; [exact H|]. cbv zeta.
    destruct (stretch_q VM NoHard 1 0 0 1 false false (1/10) 0) as (A & B); try lra. fold p in A, B. unfold elastic_domain. cbn [plastic_model p pl_par q_max]. fold p. lra.
  - destruct (pl_updated uabs VM NoHard 1 0 0 1 false false 1 0 h0) as (o & H); try lra; [fin|]. exists o. split; [exact H|]. cbv zeta.
    destruct (stretch_q VM NoHard 1 0 0 1 false false 1 0) as (A & B); try lra. fold p in A, B. unfold elastic_domain, excepted. cbn [plastic_model p pl_par q_max]. fold p. split; [lra|tauto].
Qed.
(** ** C35 *)
Example C35_ex : forall uabs, let p := pl_par VM NoHard 1 0 0 1 false false in exists o, updated svdx uabs p 1 (stretch 1 0) mzero h0 o /\
  q_max p < shear (q_prefac p) (trial_stress svdx p (stretch 1 0)) /\ shear (q_prefac p) (o_tau o) = 100.
Proof.
  intros uabs p. destruct (pl_updated uabs VM NoHard 1 0 0 1 false false 1 0 h0) as (o & H); try lra; [fin|]. exists o. split; [exact H|].
  destruct (stretch_q VM NoHard 1 0 0 1 false false 1 0) as (A & B); try lra. fold p in A, B. split; [cbn [q_max p pl_par]; fold p; lra|].
  destruct (C35_von_mises _ (or_introl eq_refl) svdx uabs p 1 _ _ _ o H eq_refl) as (_ & E & _). rewrite E. cbn [q_max p pl_par]. fold p. rewrite Rmin_right; lra.
Qed.
(** ** C36: past the tip (p = -961), and on the cone (p = 961, yield stress 96). *)
Example C36_ex : forall uabs, let p := pl_par DP NoHard (1/10) 0 0 1 false false in
  (exists o, updated svdx uabs p 1 (stretch 1 0) mzero h0 o /\ Mfric p * pressure (trial_stress svdx p (stretch 1 0)) + q_cohesion p < 1/10000000000) /\
  (exists o, updated svdx uabs p 1 (stretch 0 (-1)) mzero h0 o /\ 1/10000000000 <= Mfric p * pressure (trial_stress svdx p (stretch 0 (-1))) + q_cohesion p /\
     Mfric p * pressure (trial_stress svdx p (stretch 0 (-1))) + q_cohesion p < shear (q_prefac p) (trial_stress svdx p (stretch 0 (-1)))).
Proof.
  intros uabs p. split.
  - destruct (pl_updated uabs DP NoHard (1/10) 0 0 1 false false 1 0 h0) as (o & H); try lra; [fin|]. exists o. split; [exact H|].
    destruct (stretch_q DP NoHard (1/10) 0 0 1 false false 1 0) as (A & B); try lra. fold p in A, B. rewrite A. cbn. lra.
  - destruct (pl_updated uabs DP NoHard (1/10) 0 0 1 false false 0 (-1) h0) as (o & H); try lra; [fin|]. exists o. split; [exact H|].
    destruct (stretch_q DP NoHard (1/10) 0 0 1 false false 0 (-1)) as (A & B); try lra. fold p in A, B. rewrite A. cbn [Mfric q_cohesion p pl_par]. fold p. lra.
Qed.

(** ** C37: M = 1/10, cohesion 100, xi = 1. The trial state is at p = 961 with q > 384 and yield stress 196. *)
Example C37_ex : forall uabs, let p := pl_par DPSoft NoHard (1/10) 100 1 1 false false in exists o, updated svdx uabs p 1 (stretch 0 (-1)) mzero h0 o /\
  soft_tip p 0 < pressure (trial_stress svdx p (stretch 0 (-1))) /\
  Mfric p * (pressure (trial_stress svdx p (stretch 0 (-1))) + vol_shift p h0 - soft_tip p 0) < shear (q_prefac p) (trial_stress svdx p (stretch 0 (-1))).
Proof.
  intros uabs p. destruct (pl_updated uabs DPSoft NoHard (1/10) 100 1 1 false false 0 (-1) h0) as (o & H); try lra; [fin|]. exists o. split; [exact H|].
  destruct (stretch_q DPSoft NoHard (1/10) 100 1 1 false false 0 (-1)) as (A & B); try lra. fold p in A, B. rewrite A.
  assert (T : soft_tip p 0 = -1000) by (unfold soft_tip; cbn [Mfric q_cohesion xi p pl_par]; rewrite Rmult_0_r, exp_0; field).
  assert (V : vol_shift p h0 = 0) by (unfold vol_shift; cbn; lra).
  rewrite T, V. cbn [Mfric p pl_par]. fold p. lra.
Qed.

(** The returned state is outside the yield surface that belongs to the stored plastic strain. *)
Theorem C37_softened_surface_refuted : exists (p : @Par R (Geo2 R)) F h, plastic_model p = DPSoft /\ forall uabs, exists o,
  updated svdx uabs p 1 F mzero h o /\ 0 < shear (q_prefac p) (o_tau o) /\
  Mfric p * (pressure (o_tau o) + vol_shift p h - soft_tip p (h_dev (o_h o))) < shear (q_prefac p) (o_tau o).
Proof.
  set (p := pl_par DPSoft NoHard (1/10) 100 1 1 false false). exists p, (stretch 0 (-1)), h0. split; [reflexivity|]. intros uabs.
  destruct (pl_updated uabs DPSoft NoHard (1/10) 100 1 1 false false 0 (-1) h0) as (o & H); try lra; [fin|]. fold p in H. exists o. split; [exact H|].
  destruct (stretch_q DPSoft NoHard (1/10) 100 1 1 false false 0 (-1)) as (A & B); try lra. fold p in A, B.
  assert (T : soft_tip p 0 = -1000) by (unfold soft_tip; cbn [Mfric q_cohesion xi p pl_par]; rewrite Rmult_0_r, exp_0; field).
  assert (V : vol_shift p h0 = 0) by (unfold vol_shift; cbn; lra).
  assert (TM : forall x y, x < y -> soft_tip p x < soft_tip p y).
  { intros x y L. unfold soft_tip; cbn [Mfric q_cohesion xi p pl_par]. assert (exp (- (1) * y) < exp (- (1) * x)) by (apply exp_increasing; lra). lra. }
  assert (TN : forall x, soft_tip p x < 0).
  { intros x. unfold soft_tip; cbn [Mfric q_cohesion xi p pl_par]. pose proof (exp_pos (- (1) * x)). lra. }
  destruct (C37_softening_drucker_prager_partial _ (or_introl eq_refl) svdx uabs p 1 _ _ _ o H eq_refl) as (_ & _ & _ & D & E & _). cbv zeta in *.
  set (S := trial_stress svdx p (stretch 0 (-1))) in *. change (h_dev h0) with 0 in *. rewrite T, V, A in *.
  assert (Emu : 2 * q_prefac p * mu p = 10000/13) by (unfold p; rewrite pl_mu; cbn; field). rewrite Emu in *.
  change (Mfric p) with (1/10) in *. set (qS := shear (q_prefac p) S) in *. set (q1 := shear (q_prefac p) (o_tau o)) in *.
  set (pr := (qS - 1 / 10 * (- (12500 / 13) * (0 + -1) + 0 - -1000)) / (10000/13)) in *.
  replace (0 + pr) with pr in D by ring. pose proof (TN pr) as N1.
  assert (0 < pr) by (unfold pr; lra). pose proof (TM 0 pr ltac:(lra)) as T1. rewrite T in T1.
  destruct D as (D1 & D2 & _); try lra. rewrite Rplus_0_l in E.
  assert (L : pr < h_dev (o_h o)) by (rewrite E; unfold pr; lra).
  pose proof (TM _ _ L). pose proof (TN (h_dev (o_h o))). rewrite D1, D2. lra.
Qed.
Print Assumptions C37_softened_surface_refuted.

(** ** C38 *)
Example C38_ex : forall uabs n, 0 < n -> (let p := pl_par VMVisc NoHard 1 0 0 n false false in exists o, updated svdx uabs p 1 (stretch 1 0) mzero h0 o /\
    p_min p * exp (- xi p * h_vol h0) <= pressure (trial_stress svdx p (stretch 1 0)) /\ vm_yield p (h_dev h0) < shear (q_prefac p) (trial_stress svdx p (stretch 1 0))) /\
  (let p := pl_par DPVisc NoHard (1/10) 0 0 n false false in exists o, updated svdx uabs p 1 (stretch 0 (-1)) mzero h0 o /\
    let shifted := pressure (trial_stress svdx p (stretch 0 (-1))) + vol_shift p h0 in
    - q_cohesion p / Mfric p < shifted /\ Mfric p * shifted + q_cohesion p < shear (q_prefac p) (trial_stress svdx p (stretch 0 (-1)))).
Proof.
  intros uabs n Hn. split; intros p.
  - destruct (pl_updated uabs VMVisc NoHard 1 0 0 n false false 1 0 h0) as (o & H); try lra; [fin|]. exists o. split; [exact H|].
    destruct (stretch_q VMVisc NoHard 1 0 0 n false false 1 0) as (A & B); try lra. fold p in A, B. rewrite A. unfold vm_yield. cbn [q_min q_max xi p_min h_vol h_dev h0 p pl_par]. fold p. rewrite Rmult_0_r, exp_0. split; lra.
  - destruct (pl_updated uabs DPVisc NoHard (1/10) 0 0 n false false 0 (-1) h0) as (o & H); try lra; [fin|]. exists o. split; [exact H|].
    destruct (stretch_q DPVisc NoHard (1/10) 0 0 n false false 0 (-1)) as (A & B); try lra. fold p in A, B. cbv zeta. rewrite A.
    assert (V : vol_shift p h0 = 0) by (unfold vol_shift; cbn; lra). rewrite V. cbn [q_cohesion Mfric p pl_par]. fold p. split; lra.
Qed.

(** ** C39, with every hardening law *)
Definition clay_law (hl : HardeningLaw) : PlasticModel -> @Par R (Geo2 R) := fun pm => pl_par pm hl 1 0 0 1 false false.
Lemma sinh_Rasinh : forall x, sinh (Rasinh x) = x.
Proof. intros x. unfold Rasinh. replace (x * x + 1) with (x ^ 2 + 1) by ring. apply sinh_arcsinh. Qed.
Lemma clay_precons : forall pm hl, preconsolidation (clay_law hl pm) 0 = 1000.
Proof.
  intros pm hl. unfold preconsolidation, clay_law. destruct hl; cbn [hardening_law pl_par p0 xi stress_tolerance]; rewrite ?pl_K; try reflexivity.
  all: rewrite ?Rmult_0_r, ?Rplus_0_l, ?exp_0, ?sinh_Rasinh; try rewrite Rmax_right; lra.
Qed.
Example C39_ex : forall uabs hl, let p := clay_law hl MCC in exists o, updated svdx uabs p 1 (stretch 1 0) mzero h0 o /\
  let S := trial_stress svdx p (stretch 1 0) in 0 < cam_clay (Mfric p) (beta p) (preconsolidation p (h_vol h0)) (pressure S) (shear (q_prefac p) S).
Proof.
  intros uabs hl p. destruct (pl_updated uabs MCC hl 1 0 0 1 false false 1 0 h0) as (o & H); try lra; [fin|]. exists o. split; [exact H|].
  destruct (stretch_q MCC hl 1 0 0 1 false false 1 0) as (A & B); try lra. cbv zeta. change (h_vol h0) with 0. unfold p. rewrite clay_precons. fold p.
  change (pl_par MCC hl 1 0 0 1 false false) with p in A, B. rewrite A. unfold cam_clay. change (Mfric p) with 1. change (beta p) with 0. unfold Rsqr. nra.
Qed.

(** ** C41 *)
Example C41_ex : forall uabs, let p := pl_par DPMui NoHard 1 0 0 1 false false in
  (exists o, updated svdx uabs p 1 (stretch 0 (-1)) mzero h0 o /\ let shifted := pressure (trial_stress svdx p (stretch 0 (-1))) + vol_shift p h0 in
    - q_cohesion p / mu_1 p < shifted /\ mu_1 p * shifted + q_cohesion p + stress_tolerance p < shear (q_prefac p) (trial_stress svdx p (stretch 0 (-1)))) /\
  (exists o, updated svdx uabs p 1 (stretch 1 0) mzero h0 o /\ pressure (trial_stress svdx p (stretch 1 0)) + vol_shift p h0 < - q_cohesion p / mu_1 p).
Proof.
  intros uabs p. assert (V : vol_shift p h0 = 0) by (unfold vol_shift; cbn; lra). split.
  - destruct (pl_updated uabs DPMui NoHard 1 0 0 1 false false 0 (-1) h0) as (o & H); try lra; [fin|]. exists o. split; [exact H|].
    destruct (stretch_q DPMui NoHard 1 0 0 1 false false 0 (-1)) as (A & B); try lra. fold p in A, B. cbv zeta. rewrite A, V. cbn [q_cohesion mu_1 stress_tolerance p pl_par]. fold p. split; lra.
  - destruct (pl_updated uabs DPMui NoHard 1 0 0 1 false false 1 0 h0) as (o & H); try lra; [fin|]. exists o. split; [exact H|].
    destruct (stretch_q DPMui NoHard 1 0 0 1 false false 1 0) as (A & B); try lra. fold p in A, B. rewrite A, V. cbn [q_cohesion mu_1 p pl_par]. lra.
Qed.
Example C41_mcc_ex : forall uabs, let p := clay_law ExpoExpl MCCMui in exists o, updated svdx uabs p 1 (stretch 1 0) mzero h0 o /\
  let S := trial_stress svdx p (stretch 1 0) in 0 < cam_clay (mu_1 p) (beta p) (preconsolidation p (h_vol h0)) (pressure S) (shear (q_prefac p) S) /\ 0 < shear (q_prefac p) S.
Proof.
  intros uabs p. destruct (pl_updated uabs MCCMui ExpoExpl 1 0 0 1 false false 1 0 h0) as (o & H); try lra; [fin|]. exists o. split; [exact H|].
  destruct (stretch_q MCCMui ExpoExpl 1 0 0 1 false false 1 0) as (A & B); try lra. cbv zeta. change (h_vol h0) with 0. unfold p. rewrite clay_precons. fold p.
  change (pl_par MCCMui ExpoExpl 1 0 0 1 false false) with p in A, B. rewrite A. unfold cam_clay. change (mu_1 p) with (38/100). change (beta p) with 0. unfold Rsqr. split; nra.
Qed.

(** ** C44: the hypotheses hold for a yielding particle; the returned state carries stress. *)
Example C44_ex : forall uabs, let p := pl_par VM NoHard 1 0 0 1 false false in exists o, updated svdx uabs p 1 (stretch 1 0) mzero h0 o /\
  stretches_ok svdx (stretch 1 0) /\ ~ torn svdx p (stretch 1 0) h0 /\ elastic_model p = Hencky /\ shear (q_prefac p) (o_tau o) = 100.
Proof.
  intros uabs p. destruct (C35_ex uabs) as (o & H & _ & E). fold p in H, E. exists o. split; [exact H|]. split; [apply stretch_ok; lra|].
  split; [intros (X & _); discriminate|]. split; [reflexivity|exact E].
Qed.
(** A particle torn apart under VMVisc: its deformation is reset to a rotation, its stress is not. *)
Theorem C44_torn_refuted : exists (p : @Par R (Geo2 R)) F h, plastic_model p = VMVisc /\ elastic_model p = Hencky /\ stretches_ok svdx F /\ forall uabs, exists o,
  updated svdx uabs p 1 F mzero h o /\ o_F o = mident /\ o_tau o <> mzero /\ ~ is_hencky_stress p (o_F o) (o_tau o).
Proof.
  set (p := pl_par VMVisc NoHard 1 0 0 1 false false). exists p, (stretch 1 1), h0. split; [reflexivity|]. split; [reflexivity|]. split; [apply stretch_ok; lra|]. intros uabs.
  destruct (pl_updated uabs VMVisc NoHard 1 0 0 1 false false 1 1 h0) as (o & H); try lra; [fin|]. fold p in H. exists o. split; [exact H|].
  destruct (stretch_q VMVisc NoHard 1 0 0 1 false false 1 1) as (A & _); try lra. fold p in A.
  pose proof (geolaws _ (or_introl eq_refl) : GeoLaws (Geo2 R)) as GL. destruct H as (Sv & El & Sa & Em & Hdt & E).
  destruct (plast_inv svdx uabs p 1 _ _ _ _ E) as (U & s & V & r & Es & Hr & HF & Htau & _). rewrite Em in Htau.
  destruct (trial_pq svdx p El Sv _ _ _ _ Es) as (T & EP & _ & ET & HU). rewrite A in EP.
  unfold return_map in Hr. change (plastic_model p) with VMVisc in Hr. apply Ok_inj in Hr. pose proof Sa as SA. destruct SA.
  destruct (vmv_res p El 1 (trial s) T h0 Hdt sa_visc sa_q r (eq_sym Hr)) as (K & _ & _).
  assert (C : cap p h0 = -1000) by (unfold cap; cbn [p_min xi h_vol h0 p pl_par]; rewrite Rmult_0_r, exp_0; lra).
  destruct K as (K1 & K2 & _); [rewrite <- EP, C; lra|]. rewrite K2 in HF. rewrite K1 in Htau.
  unfold stretch in Es. rewrite svdx_diag in Es by (apply Rlt_le, exp_pos). inj3 Es.
  assert (I : o_F o = mident). { rewrite HF. cbn. unfold mident; cbn. f_equal; numR; field. }
  assert (PT : pressure (o_tau o) = - (12500 / 13) * (1 + 1)) by (rewrite Htau, <- ET; exact A).
  split; auto. rewrite I. split.
  - intros Z. rewrite Z in PT. unfold pressure in PT. cbn in PT. lra.
  - intros Hs. pose proof (C45_hydrostatic _ (or_introl eq_refl) p _ _ Hs) as X. rewrite PT in X.
    replace (mdet (mident : @TM R (Geo2 R))) with 1 in X by (cbn; numR; field). rewrite Rabs_R1, ln_1 in X. lra.
Qed.
Print Assumptions C44_torn_refuted.

(** ** C45: a deformation with a non-zero stress, and a rotation by a quarter turn. *)
Example C45_ex : forall uabs, let p := pl_par VM NoHard 1 0 0 1 false false in let Q : @TM R (Geo2 R) := mkM2 0 (-1) 1 0 in
  orthogonal Q /\ mdet Q = 1 /\ mdet (stretch 1 0) <> 0 /\ exists o, updated svdx uabs p 1 (stretch 1 0) mzero h0 o.
Proof.
  intros uabs p Q. split; [|split; [|split]].
  - assert (M1 : mmul Q (mtr Q) = mident) by (unfold Q; cbn; unfold mident; cbn; f_equal; numR; field). assert (M2 : mmul (mtr Q) Q = mident) by (unfold Q; cbn; unfold mident; cbn; f_equal; numR; field). repeat split; assumption.
  - unfold Q; cbn; numR; ring.
  - unfold stretch; cbn; numR. pose proof (exp_pos 1). pose proof (exp_pos 0). nra.
  - destruct (C35_ex uabs) as (o & H & _). eauto.
Qed.

(** ** C46: concrete configurations. *)
Example C46_ex : ~ reads_garbage (clay_law ExpoExpl MCC) /\
  (let p := clay_law NoHard MCCMui in plastic_model p = MCCMui /\ hardening_law p = NoHard /\ elastic_model p = Hencky) /\
  (let p := pl_par MCC NoHard 1 0 0 1 false true in elastic p /\ sane p /\ use_mibf p = true /\
   let S := trial_stress svdx p (stretch 1 0) in 0 < cam_clay (Mfric p) (beta p) (p0 p) (pressure S) (shear (q_prefac p) S)).
Proof.
  split; [intros (? & _); discriminate|]. split; [repeat split|]. intros p. split; [apply pl_elastic|]. split; [apply pl_sane; lra|]. split; [reflexivity|].
  destruct (stretch_q MCC NoHard 1 0 0 1 false true 1 0) as (A & B); try lra. fold p in A, B. cbv zeta. rewrite A. unfold cam_clay. change (Mfric p) with 1. change (beta p) with 0. change (p0 p) with 1000. unfold Rsqr. nra.
Qed.

(** ** C47: the rate left by a yielding step is still there after the particle has been unloaded. *)
Theorem C47_usl_stale_refuted : exists (p : @Par R (Geo2 R)) F1 h, plastic_model p = VM /\ use_musl p = false /\ h_dg h = 0 /\ forall uabs, exists o1 A o2,
  updated svdx uabs p 1 F1 mzero h o1 /\ updated svdx uabs p 1 (mmul A (o_F o1)) (o_tau o1) (o_h o1) o2 /\
  shear (q_prefac p) (trial_stress svdx p (mmul A (o_F o1))) = 0 /\ o_count o2 = 0%nat /\ 0 < h_dg (o_h o2).
Proof.
  set (p := pl_par VM NoHard 1 0 0 1 false false). exists p, (stretch 1 0), h0. split; [reflexivity|]. split; [reflexivity|]. split; [reflexivity|]. intros uabs.
  destruct (C35_ex uabs) as (o1 & H & B & _). fold p in H, B. change (q_max p) with 100 in B. exists o1.
  pose proof H as (Sv & El & Sa & Em & Hdt & E). pose proof (geolaws _ (or_introl eq_refl) : GeoLaws (Geo2 R)) as GL. pose proof Sa as SA. destruct SA.
  pose proof (C42_correction_keeps_volume _ (or_introl eq_refl) svdx uabs p 1 _ _ _ _ Sv El sa_visc Hdt (stretch_ok 1 0 ltac:(lra) ltac:(lra)) E) as Vol.
  assert (D : mdet (o_F o1) <> 0).
  { intros Z. unfold volume_ratio in Vol. rewrite Z in Vol. cbn in Vol. numR. pose proof (exp_pos 1). pose proof (exp_pos 0). assert (0 < exp 1 * exp 0) by now apply Rmult_lt_0_compat. rewrite ?exp_0 in *. lra. }
  exists (minv (o_F o1)). rewrite (minv_l _ (or_introl eq_refl) _ D).
  assert (I : mident = stretch 0 0) by (unfold mident, stretch; cbn; rewrite exp_0; f_equal; numR; field). rewrite I.
  destruct (C46_defined_partial _ _ _ svdx uabs p 1 (stretch 0 0) (o_tau o1) (o_h o1)) as (o2 & E2); [intros (_ & [X|([X|X] & _)]); discriminate|]. exists o2.
  split; [exact H|]. assert (U2 : updated svdx uabs p 1 (stretch 0 0) (o_tau o1) (o_h o1) o2) by (split; [exact Sv|split; [exact El|split; [exact Sa|split; [exact Em|split; [exact Hdt|exact E2]]]]]). split; [exact U2|].
  destruct (stretch_q VM NoHard 1 0 0 1 false false 0 0) as (_ & Z); try lra. fold p in Z. assert (Z0 : shear (q_prefac p) (trial_stress svdx p (stretch 0 0)) = 0) by lra. split; auto.
  destruct (plast_inv svdx uabs p 1 _ _ _ _ E) as (U & s & V & r & Es & Hr & _ & _ & Hh & _).
  destruct (plast_inv svdx uabs p 1 _ _ _ _ E2) as (U' & s' & V' & r' & Es' & Hr' & _ & _ & Hh' & Hc' & _).
  destruct (trial_pq svdx p El Sv _ _ _ _ Es) as (T & _ & EQ & _). destruct (trial_pq svdx p El Sv _ _ _ _ Es') as (T' & _ & EQ' & _).
  unfold return_map in Hr, Hr'. change (plastic_model p) with VM in Hr, Hr'. apply Ok_inj in Hr. apply Ok_inj in Hr'.
  assert (Q0 : 0 <= q_max p) by (cbn; lra).
  destruct (vm_res p El 1 (trial s) T h0 Q0) as (_ & _ & K). destruct K as (_ & _ & K); [rewrite <- EQ; exact B|].
  destruct (vm_res p El 1 (trial s') T' (o_h o1) Q0) as (_ & K' & _). rewrite Hr' in K'. rewrite K' in Hh', Hc' by (rewrite <- EQ', Z0; exact Q0).
  rewrite Hc', Hh'. split; [reflexivity|]. cbn [r_h]. rewrite Hh, <- Hr, K, <- EQ. pose proof (fmu_pos p El). change (q_max p) with 100. unfold Rdiv. rewrite Rinv_1, Rmult_1_r.
  apply Rmult_lt_0_compat; [lra|now apply Rinv_0_lt_compat].
Qed.
Print Assumptions C47_usl_stale_refuted.

(** ** C42, C43, C44, C47 over steps: two particles moving with velocity (1,0). *)
Lemma ident_stretch : mident = stretch 0 0.
Proof. unfold mident, stretch; cbn; rewrite exp_0; f_equal; numR; field. Qed.
Lemma ex_admissible : forall flip musl rate g sp, admissible_material svdx (ex_p flip musl rate g sp).
Proof.
  intros. pose proof Rlt_sqrt2_0. assert (0 < 1 / sqrt 2) by (apply Rdiv_lt_0_compat; lra).
  split; [apply svdx_ok|]. split; [unfold elastic; cbn; lra|]. split; [constructor; cbn; lra|cbn; lra].
Qed.
Example C42_ex : forall uabs, let p := ex_p 1 true 1000 vzero false in let s0 := ex_state p (two_particles (e2 1 0) (e2 1 0) mzero mzero mzero mzero) in
  admissible_material svdx p /\ well_formed s0 2 /\ monotone_model (plastic_model p) /\ elastic_model p = Hencky /\ use_musl p = true /\
  exists af s1 L x F t h, advanceStep svdx uabs af p seq_sched s0 = Ok s1 /\ nth_error (p_x (s_p s0)) 0 = Some x /\ particle_at (s_p s0) 0 F t h /\
    velocity_gradient p (s_axes s1) (s_nodes s1) x L /\
    let Ft := mmul (increment (s_dt s1) L) F in let l := [(increment (s_dt s1) L, Ft)] in
    history svdx uabs af p 0 s0 l (tick p s1) /\ moderate svdx l /\ stretches_ok svdx Ft /\ ~ torn svdx p Ft h /\
    elastic_domain p h (pressure (trial_stress svdx p Ft)) (shear (q_prefac p) (trial_stress svdx p Ft)).
Proof.
  intros uabs p s0. pose proof (ex_wf p (e2 1 0) (e2 1 0) mzero mzero mzero mzero []) as W. split; [apply ex_admissible|]. split; [exact W|]. split; [exact I|]. split; [reflexivity|]. split; [reflexivity|].
  destruct (ex_mech svdx uabs seq_sched 1 true vzero (e2 1 0) (e2 1 0) mzero mzero mzero mzero seq_valid) as (af & s1 & E & Fs & GO & Rg & Hg). fold p in E, Fs, GO, Rg. fold s0 in E, Fs, GO, Rg.
  destruct (C12_uniform_motion _ (or_introl eq_refl) svdx uabs af p seq_sched s0 s1 2 (e2 1 0)) as (_ & _ & KF); auto; try (cbn; lra); try exact seq_valid.
  { intros v [<-|[<-|[]]]; reflexivity. } { intros v [<-|[<-|[]]]; reflexivity. }
  specialize (KF eq_refl).
  assert (Pa : particle_at (s_p s0) 0 mident mzero (mkHist 0 0 0 0 0 0)) by (repeat split).
  destruct (step_particle _ (or_introl eq_refl) svdx uabs af p seq_sched s0 s1 2 0 _ _ _ _ seq_valid W E eq_refl Pa) as (L & o & VG & Pl & (P1 & _)).
  rewrite KF in P1. change (nth_error (p_F (s_p s0)) 0) with (Some (mident : @TM R (Geo2 R))) in P1. assert (P2 : o_F o = mident) by congruence.
  destruct (plast_inv svdx uabs p _ _ _ _ _ Pl) as (U & s & V & r & Es & Hr & HF & _). unfold return_map in Hr. change (plastic_model p) with NoPlasticity in Hr. apply Ok_inj in Hr. subst r. cbn [r_upd] in HF.
  assert (Ft : mmul (increment (s_dt s1) L) mident = stretch 0 0) by (rewrite <- HF, P2; apply ident_stretch).
  exists af, s1, L, (e2 (1/2) (1/4)), mident, mzero, (mkHist 0 0 0 0 0 0). split; [exact E|]. split; [reflexivity|]. split; [exact Pa|]. split; [exact VG|]. cbv zeta.
  assert (Ok : stretches_ok svdx (mmul (increment (s_dt s1) L) mident)) by (rewrite Ft; apply stretch_ok; lra).
  split; [|split; [|split; [exact Ok|split]]].
  - apply (hist_step svdx uabs af p 0 seq_sched s0 s1 (tick p s1) L (e2 (1/2) (1/4)) mident []); auto; try exact seq_valid. constructor.
  - intros A F [X|[]]. apply (f_equal snd) in X. cbn in X. subst F. exact Ok.
  - intros (X & _). discriminate.
  - exact I.
Qed.
