(** * PropRingMomentum: C82, momentum in a periodic box. *)
From Coq Require Import Reals ZArith Lra Lia List Bool Permutation.
From Verif Require Import Num NumR Tools Lin Types Remesh Objects Transfer Rma Plastic Pbc Step Spec SpecStep SpecMech SpecMpm SpecLocal SpecPbc SpecMaterial SpecRing LinProofs ResProofs
  KernelProofs GridProofs StencilProofs RemeshProofs GradProofs PloopProofs PbcProofs StepProofs StepMech StepField TimeProofs PlateProofs PlasticModels MpmProofs IndexProofs BalanceProofs TwinProofs LocalProofs RingProofs RingBalance RingMomentum ExStep ExMech PropStep PropMaterial PropPbc PropRing.
Import ListNotations.
Local Open Scope R_scope.

(** A box of whole cells without obstacles, any material, transfer scheme and thread schedule: gravity alone changes the momentum. *)
Theorem C82_momentum : forall (G : Geo R), two_or_three G -> forall svd uabs af p sc s0 s1 n axes cells,
  0 < dx p -> 0 < particle_mass p -> (8 <= cells)%nat -> Lx p = INR cells * dx p -> use_pbc p = true -> use_mibf p = false -> change_pos p = false ->
  objects p = [] -> s_plates s0 = [] ->
  valid_sched sc -> well_formed s0 n -> remeshFixed af p 4 = Ok axes -> GridOk p axes -> s_step s0 = 0%Z \/ s_axes s0 = axes ->
  (forall q, In q (particles (s_p s0)) -> 0 <= vget (q_x q) 0 < Lx p) ->
  (forall q, In q (copies p 1 (particles (s_p s0))) -> in_grid p axes (q_x q) -> regular_cloud p axes [q_x q]) ->
  advanceStep svd uabs af p sc s0 = Ok s1 ->
  forall k, (k < dim)%nat ->
  Rsum (fun v => particle_mass p * vget v k) (p_v (s_p s1)) = Rsum (fun v => particle_mass p * vget v k) (p_v (s_p s0)) + s_dt s1 * (particle_mass p * INR n) * vget (s_grav s1) k.
Proof.
  intros G HG svd uabs af p sc s0 s1 n axes N Hdx Hm HN8 HN Pb Hu Hc Ob Pl V W Ea GO Ax In0 RC H k Hk. pose proof (geolaws G HG) as GL.
  assert (HL : 8 * dx p <= Lx p) by (rewrite HN; apply (le_INR 8) in HN8; cbn in HN8; nra).
  destruct (C81_step G HG svd uabs af p sc s0 s1 n axes Hdx Hm HL Pb Hu Hc V W Ea GO Ax In0 RC H) as (A1 & grid & Lg & NL & _ & PL).
  destruct (wf_pack s0 n W) as (l & L & E & Nl & F). destruct (step_run svd uabs af p sc s0 s1 l V E Nl F H) as [Rn].
  pose proof (r_cov svd uabs af p sc s0 s1 l Rn Hdx ltac:(rewrite A1; exact GO)) as Cov. rewrite A1 in Cov. rewrite E, particles_pack in *.
  pose proof (C51_step_keeps_arrays G svd uabs af p sc s0 s1 n V W H) as W1. destruct (wf_pack s1 n W1) as (l1 & L1 & E1 & _). rewrite E1, particles_pack in *.
  specialize (PL 1%nat (le_n _)). specialize (NL 1%nat (le_n _)). rewrite Pl in NL.
  assert (Ol : spline p = Deg1 -> forall q, In q (copies p 1 l) -> Covered p axes (q_x q) -> off_lines p axes (q_x q)).
  { intros Hs q Hq C. apply off_lines_iff. apply (RC q Hq); [apply in_grid_covered; auto|now left|exact Hs]. }
  pose proof (sum_blend p Hdx Hm N HN8 HN af axes Ea GO l grid (s_dt s1) (s_grav s1) Ob Lg In0 Cov Ol NL k Hk) as B.
  unfold pack. cbn [p_v]. rewrite !Rsum_map, !Rsum_scal. rewrite L in B.
  assert (S : Rsum (fun q => vget (q_v q) k) l1 = Rsum (fun q => vget (q_v q) k) l + s_dt s1 * INR n * vget (s_grav s1) k).
  { rewrite <- B. symmetry. clear - PL Hk. set (gr := combine (positions axes) grid) in *. clearbody gr. set (cp := copies p 1 l) in *. clearbody cp.
    induction PL as [|q q1 l l1 (u & (z & _ & Eu & _) & [_ _ P2 _ _]) _ IH]; [reflexivity|]. cbn [Rsum]. rewrite IH, Eu. cbn [moved q_v]. rewrite (P2 k Hk). reflexivity. }
  rewrite S. ring.
Qed.
Print Assumptions C82_momentum.

(** Any number of steps. *)
Theorem C82_run : forall (G : Geo R), two_or_three G -> forall svd uabs af p s0 r s2 n axes cells,
  0 < dx p -> 0 < particle_mass p -> (8 <= cells)%nat -> Lx p = INR cells * dx p -> use_pbc p = true -> use_mibf p = false -> change_pos p = false ->
  objects p = [] -> s_plates s0 = [] -> well_formed s0 n -> remeshFixed af p 4 = Ok axes -> GridOk p axes -> s_step s0 = 0%Z \/ s_axes s0 = axes ->
  ring_run svd uabs af p axes s0 r s2 ->
  forall k, (k < dim)%nat ->
  Rsum (fun v => particle_mass p * vget v k) (p_v (s_p s2)) = Rsum (fun v => particle_mass p * vget v k) (p_v (s_p s0)) + Rsum (fun '(dt, grav) => dt * (particle_mass p * INR n) * vget grav k) r.
Proof.
  intros G HG svd uabs af p s0 r s2 n axes N Hdx Hm HN8 HN Pb Hu Hc Ob Pl W Ea GO Ax Rn k Hk. pose proof (geolaws G HG) as GL.
  assert (HL : 8 * dx p <= Lx p) by (rewrite HN; apply (le_INR 8) in HN8; cbn in HN8; nra).
  induction Rn as [s|sc s0 s1 r s2 V In0 RC E Rn IH]; [cbn; ring|].
  assert (Tp : s_p (tick p s1) = s_p s1) by (unfold tick; cbv zeta; destruct (nltb _ _); reflexivity).
  assert (Tl : s_plates (tick p s1) = s_plates s1) by (unfold tick; cbv zeta; destruct (nltb _ _); reflexivity).
  assert (Ta : s_axes (tick p s1) = s_axes s1) by (unfold tick; cbv zeta; destruct (nltb _ _); reflexivity).
  pose proof (C51_step_keeps_arrays G svd uabs af p sc s0 s1 n V W E) as W1.
  destruct (C81_step G HG svd uabs af p sc s0 s1 n axes Hdx Hm HL Pb Hu Hc V W Ea GO Ax In0 RC E) as (A1 & _).
  destruct (step_keep svd uabs af p sc s0 s1 E) as (_ & _ & _ & K & _). rewrite Pl in K.
  rewrite IH; [|rewrite Tl, K; reflexivity|now apply wf_tick|right; rewrite Ta; exact A1].
  rewrite Tp, (C82_momentum G HG svd uabs af p sc s0 s1 n axes N Hdx Hm HN8 HN Pb Hu Hc Ob Pl V W Ea GO Ax In0 RC E k Hk). cbn [Rsum]. ring.
Qed.
Print Assumptions C82_run.

(** Two particles at the two ends of a box of ten cells, with and without MUSL. *)
Example C82_ex : forall musl svd uabs, exists af axes s1, let p := ring_p musl in let s0 := ex_state p pb_cloud in
  (8 <= 10)%nat /\ Lx p = INR 10 * dx p /\ objects p = [] /\ s_plates s0 = [] /\ well_formed s0 2 /\ remeshFixed af p 4 = Ok axes /\ GridOk p axes /\
  ring_run svd uabs af p axes s0 [(s_dt s1, s_grav s1)] (tick p s1) /\ Rsum (fun v => particle_mass p * vget v 0) (p_v (s_p s0)) = 6.
Proof.
  intros musl svd uabs. destruct (C81_ex musl svd uabs) as (af & axes & s1 & W & Ea & GO & In0 & RC & H & Hun). exists af, axes, s1. cbv zeta. split; [lia|]. split; [cbn; lra|].
  split; [reflexivity|]. split; [reflexivity|]. split; [exact W|]. split; [exact Ea|]. split; [exact GO|]. split.
  - econstructor; [exact rev_valid|exact In0|exact RC|exact H|constructor].
  - cbn. lra.
Qed.

(** ** A box of ten cells and a half (the sampling functions choose dx from the number of particles, so Lx is in general not a whole number of cells) *)
Definition odd_p : @Par R (Geo2 R) :=
  {| spline := Deg2; end_frame := 1; use_pbc := true; change_pos := false; gravity_special := false;
     save_sim := true; save_grid := false; use_mibf := false; use_musl := false;
     grid_ref := vtab (fun _ => 20000000000); gravity0 := vzero;
     min_dt := 1/100000000000000; fps := 1000; cfl := 1/2; cfl_elastic := 1/2; flip_ratio := 0;
     rho := 1000; gravity_time := 0; Lx := 21/2; Ly := 10; Lz := 10;
     particle_mass := 1; particle_volume := 1; dx := 1;
     elastic_model := Hencky; plastic_model := NoPlasticity; hardening_law := ExpoImpl;
     use_pradhana := true; young := 1000; nu := 3/10; stress_tolerance := 1/100000; xi := 0;
     q_max := 100; q_min := 100; p_min := -100000000000000000000;
     Mfric := 1; q_cohesion := 0; visc_exponent := 1; visc_time := 0; use_dl := false;
     beta := 0; p0 := 1000; rho_s := 2500; grain_diameter := 1/1000; I_ref := 279/1000;
     mu_1 := 38/100; mu_2 := 64/100; q_prefac := 1 / sqrt 2; objects := [] |}.
Definition odd_cloud : @Particles R (Geo2 R) :=
  mkParticles (G := Geo2 R) [e2 (1/2) 5; e2 10 5] [e2 1 0; vzero] [vzero; vzero] [vzero; vzero]
    [mkHist 0 0 0 0 0 0; mkHist 0 0 0 0 0 0] [mident; mident] [mzero; mzero] [mzero; mzero].
Lemma odd_lattice : forall af axes, remeshFixed (G := Geo2 R) af odd_p 4 = Ok axes -> forall j X, GridOk odd_p axes -> nth_error (positions axes) j = Some X ->
  exists a b : Z, vget (Geo := Geo2 R) X 0 = IZR a /\ vget (Geo := Geo2 R) X 1 = IZR b.
Proof.
  intros af axes Ea j X GO Hj. apply nth_error_In in Hj. unfold positions in Hj. apply in_map_iff in Hj. destruct Hj as (c & <- & Hc). rewrite !vget_tab by (cbn; lia).
  unfold remeshFixed in Ea. pose proof (mapM_length _ _ _ Ea) as L. destruct axes as [|a [|b [|]]]; try discriminate.
  pose proof (mapM_seq_nth _ _ _ _ 0%nat a Ea eq_refl) as Fa. pose proof (mapM_seq_nth _ _ _ _ 1%nat b Ea eq_refl) as Fb. cbn [remeshFixed_axis] in Fa, Fb.
  apply mk_axis_spec in Fa; [|cbn; lra]. apply mk_axis_spec in Fb; [|cbn; lra]. destruct Fa as (Ca & La & _). destruct Fb as (Cb & Lb & _).
  apply lattice_co in La. apply lattice_co in Lb. cbn [lattice_points] in Hc. apply in_flat_map in Hc. destruct Hc as (c0 & Hc0 & Hc). apply in_map_iff in Hc. destruct Hc as (r & <- & Hc).
  apply in_flat_map in Hc. destruct Hc as (c1 & Hc1 & Hc). apply in_map_iff in Hc. destruct Hc as (r' & <- & _). cbn [nth].
  rewrite La in Hc0. rewrite Lb in Hc1. apply in_map_iff in Hc0. apply in_map_iff in Hc1. destruct Hc0 as (i0 & <- & _). destruct Hc1 as (i1 & <- & _).
  rewrite Ca, Cb. exists (Z.of_nat i0 - 5)%Z, (Z.of_nat i1 - 1)%Z. rewrite !minus_IZR, <- !INR_IZR_INZ. rewrite ?nofZ_R. numR. cbn [dx odd_p Z.add Pos.add]. split; lra.
Qed.
Lemma odd_regular : forall af axes, remeshFixed (G := Geo2 R) af odd_p 4 = Ok axes -> GridOk odd_p axes ->
  forall q, In q (copies odd_p 1 (particles odd_cloud)) -> in_grid odd_p axes (q_x q) -> regular_cloud odd_p axes [q_x q].
Proof.
  intros af axes Ea GO q Hq Ig x [<-|[]]. split; [|discriminate]. intros items it Es Hit.
  assert (C : Covered odd_p axes (q_x q)) by (apply in_grid_covered; [cbn; lra|exact Ig]).
  destruct (stencil_cov odd_p ltac:(cbn; lra) _ _ GO C) as (Es' & _ & S). rewrite Es in Es'. apply Ok_inj in Es'. subst items.
  rewrite (item_weight odd_p ltac:(cbn; lra) _ _ _ GO C Hit).
  pose proof (stencil_pos odd_p ltac:(cbn; lra) axes _ it GO C Hit) as Ps. pose proof (sl_idx _ _ _ _ S it Hit) as Hx.
  destruct (odd_lattice af axes Ea (Z.to_nat (it_idx it)) (it_x it) GO) as (a & b & Ha & Hb).
  { rewrite Ps. apply pos_at; auto. lia. }
  rewrite weight2 by reflexivity. rewrite Ha, Hb. cbn [spline odd_p N dx].
  assert (Q : exists z0 z1 : Z, (vget (q_x q) 0 - IZR a) / 1 = IZR z0 / 2 /\ (vget (q_x q) 1 - IZR b) / 1 = IZR z1 / 2).
  { unfold copies in Hq. apply in_flat_map in Hq. destruct Hq as (k & _ & Hq). apply in_map_iff in Hq. destruct Hq as (q' & <- & Hq'). cbn [moved q_x Types.Lx odd_p]. rewrite shift_0.
    unfold shift_x. rewrite vget_set by (cbn; lia). cbn [Nat.eqb].
    destruct Hq' as [<-|[<-|[]]]; cbn [q_x]; [exists (1 + 21 * k - 2 * a)%Z, (10 - 2 * b)%Z|exists (20 + 21 * k - 2 * a)%Z, (10 - 2 * b)%Z];
      rewrite !minus_IZR, ?plus_IZR, !mult_IZR; cbn; split; lra. }
  destruct Q as (z0 & z1 & -> & ->). destruct (N2_half z0) as [->|H0]; [left; ring|]. destruct (N2_half z1) as [->|H1]; [left; ring|]. right. nra.
Qed.
Lemma interp_seen : forall (G : Geo R) (GL : GeoLaws G) p axes x g (f : TV -> Node R -> R) (phi : TV -> R), length g = length (positions axes) ->
  seen_by p axes x g (fun X nd => f X nd = phi X) -> interpolated p (combine (positions axes) g) x f = Rsum (fun X => weight p X x * phi X) (positions axes).
Proof.
  intros G GL p axes x g f phi Lg Hs. unfold interpolated. rewrite <- (Rsum_fst _ _ (fun X => weight p X x * phi X) (positions axes) g) by (symmetry; exact Lg).
  apply Rsum_ext. intros (X, nd) Hi. cbn [fst snd]. destruct (in_combine_nth _ _ _ _ _ _ Hi) as (j & Hj & Hn).
  destruct (Req_dec (weight p X x) 0) as [->|Z]; [ring|]. rewrite (Hs j X nd Hj Hn); [reflexivity|]. pose proof (w_nonneg p X x). lra.
Qed.
Lemma N2_vals : (forall y, 3/2 <= y \/ y <= -3/2 -> N2 y = 0) /\ (forall y, y = 1/2 \/ y = -1/2 -> N2 y = 1/2) /\ N2 0 = 3/4 /\ (forall y, y = 1 \/ y = -1 -> N2 y = 1/8).
Proof.
  split; [intros y Hy; apply N2_at; unfold Rabs; destruct (Rcase_abs y); lra|]. split; [intros y Hy; apply N2_at; unfold Rabs; destruct (Rcase_abs y); lra|].
  split; [|intros y Hy]; unfold N2; cbv zeta; rewrite ?nofZ_R; numR; cbn [nabs NumR].
  - rewrite Rabs_R0. destruct (Rltb_spec 0 (1/2)); lra.
  - replace (Rabs y) with 1 by (unfold Rabs; destruct (Rcase_abs y); lra). destruct (Rltb_spec 1 (1/2)); [lra|]. destruct (Rltb_spec 1 (3/2)); lra.
Qed.

(** Otherwise the nodes beside the two ends of the box differ: without gravity, obstacles or stress, the momentum drops from 1 to 27/28 in one step. *)
Theorem C82_cells_refuted : forall svd uabs, exists af axes s1, let p := odd_p in let s0 := ex_state p odd_cloud in
  remeshFixed af p 4 = Ok axes /\ GridOk p axes /\ well_formed s0 2 /\ 8 * dx p <= Lx p /\ objects p = [] /\ s_plates s0 = [] /\
  (forall q, In q (particles (s_p s0)) -> 0 <= vget (q_x q) 0 < Lx p) /\
  (forall q, In q (copies p 1 (particles (s_p s0))) -> in_grid p axes (q_x q) -> regular_cloud p axes [q_x q]) /\
  advanceStep svd uabs af p rev_sched s0 = Ok s1 /\ s_grav s1 = vzero /\
  Rsum (fun v => particle_mass p * vget v 0) (p_v (s_p s0)) = 1 /\ Rsum (fun v => particle_mass p * vget v 0) (p_v (s_p s1)) = 27/28.
Proof.
  intros svd uabs. set (p := odd_p). destruct (fixed_terminates (G := Geo2 R) p ltac:(cbn; lra) ltac:(cbn; lra) ltac:(cbn; lra) ltac:(cbn; lra)) as (af & T). destruct (T af (le_n _)) as (axes & Ea).
  pose proof (geolaws (Geo2 R) (or_introl eq_refl)) as GL. assert (Hdx : 0 < dx p) by (cbn; lra).
  set (s0 := ex_state p odd_cloud). assert (W : well_formed s0 2) by (split; [constructor; reflexivity|split; [reflexivity|cbn; lia]]).
  destruct (C53_periodic_step_is_safe _ (or_introl eq_refl) svd uabs af p rev_sched s0 2 axes ltac:(cbn; lra) eq_refl eq_refl rev_valid W ltac:(lia)
    (no_obstacles p eq_refl) (no_plasticity svd uabs p eq_refl) ltac:(cbn; lra) ltac:(cbn; lra) ltac:(cbn; lra) Ea (or_introl eq_refl)) as (s1 & H & A1 & GO).
  { intros x [<-|[<-|[]]]; cbn; repeat split; try lra; intros; discriminate. }
  assert (In0 : forall q, In q (particles (s_p s0)) -> 0 <= vget (q_x q) 0 < Types.Lx p) by (intros q [<-|[<-|[]]]; cbn; lra).
  pose proof (odd_regular af axes Ea GO) as RC.
  destruct (C81_step _ (or_introl eq_refl) svd uabs af p rev_sched s0 s1 2 axes Hdx ltac:(cbn; lra) ltac:(cbn; lra) eq_refl eq_refl eq_refl rev_valid W Ea GO (or_introl eq_refl) In0 RC H)
    as (_ & grid & Lg & NL & _ & PL).
  specialize (NL 1%nat (le_n _)). specialize (PL 1%nat (le_n _)).
  pose proof (C51_step_keeps_arrays _ svd uabs af p rev_sched s0 s1 2 rev_valid W H) as W1. destruct (wf_pack s1 2 W1) as (l1 & L1 & E1 & _).
  assert (Cov : forall q, In q (particles (s_p s0)) -> Covered p axes (q_x q)).
  { intros q Hq. apply (fixed_covers p Hdx af axes (q_x q) Ea); destruct Hq as [<-|[<-|[]]]; cbn; try lra; intros; discriminate. }
  assert (Gv : s_grav s1 = vzero) by (destruct (step_dt_grav svd uabs af p rev_sched s0 s1 H) as (_ & Eg & _); rewrite Eg; reflexivity).
  rewrite E1, particles_pack in PL. set (l := particles (s_p s0)) in *.
  set (qa := mkP1 (G := Geo2 R) (e2 (1/2) 5) (e2 1 0) vzero vzero (mkHist 0 0 0 0 0 0) mident mzero mzero).
  set (qb := mkP1 (G := Geo2 R) (e2 10 5) vzero vzero vzero (mkHist 0 0 0 0 0 0) mident mzero mzero).
  assert (El : l = [qa; qb]) by reflexivity. destruct N2_vals as (Z0 & Z1 & Z2 & Z3).
  assert (NV : forall q j X nd, In q l -> nth_error (positions axes) j = Some X -> nth_error grid j = Some nd -> 0 < weight p X (q_x q) -> exists a b : Z, vget X 0 = IZR a /\ 0 < N2 (vget (q_x q) 0 - IZR a) /\
      let s := N2 (1/2 - 21/2 - IZR a) + N2 (10 - 21/2 - IZR a) + N2 (1/2 - IZR a) + N2 (10 - IZR a) + N2 (1/2 + 21/2 - IZR a) + N2 (10 + 21/2 - IZR a) in
      s * vget (nd_v nd) 0 = N2 (1/2 - 21/2 - IZR a) + N2 (1/2 - IZR a) + N2 (1/2 + 21/2 - IZR a)).
  { intros q j X nd Hq Hj Hn Hw. destruct (odd_lattice af axes Ea j X GO Hj) as (a & b & Xa & Xb). exists a, b. split; [exact Xa|].
    destruct (NL j X nd Hj Hn (seen_range p l Hdx In0 q X Hq Hw)) as [M _ Nw].
    assert (WV : forall d q, weight p X (q_x (moved d q)) = N2 (vget (q_x q) 0 + d - IZR a) * N2 (vget (q_x q) 1 - IZR b)).
    { intros d q'. rewrite weight2 by reflexivity. cbn [moved q_x spline dx p odd_p N]. rewrite shift_0, shift_k by (cbn; lia). rewrite Xa, Xb. f_equal; f_equal; field. }
    assert (WV0 : forall q, weight p X (q_x q) = N2 (vget (q_x q) 0 - IZR a) * N2 (vget (q_x q) 1 - IZR b)).
    { intros q'. rewrite weight2 by reflexivity. cbn [spline dx p odd_p N]. rewrite Xa, Xb. f_equal; f_equal; field. }
    assert (Y5 : vget (q_x q) 1 = 5) by (destruct Hq as [<-|[<-|[]]]; reflexivity).
    assert (NN : forall z : R, 0 <= N2 z) by (intros z; exact (N_nonneg Deg2 z)).
    rewrite WV0, Y5 in Hw. set (ny := N2 (5 - IZR b)) in *. pose proof (NN (5 - IZR b)) as Hny. fold ny in Hny. pose proof (NN (vget (q_x q) 0 - IZR a)) as Hna.
    assert (Pn : 0 < ny) by nra. split; [nra|]. cbv zeta.
    rewrite El in M, Nw. change (copies p 1 [qa; qb]) with [moved (-1 * (21/2)) qa; moved (-1 * (21/2)) qb; moved (0 * (21/2)) qa; moved (0 * (21/2)) qb; moved (1 * (21/2)) qa; moved (1 * (21/2)) qb] in M, Nw.
    assert (SP : 0 < Rsum (fun q => weight p X (q_x q)) [moved (-1 * (21/2)) qa; moved (-1 * (21/2)) qb; moved (0 * (21/2)) qa; moved (0 * (21/2)) qb; moved (1 * (21/2)) qa; moved (1 * (21/2)) qb]).
    { apply Rlt_le_trans with (weight p X (q_x q)); [rewrite WV0, Y5; exact Hw|]. change [moved (-1 * (21/2)) qa; moved (-1 * (21/2)) qb; moved (0 * (21/2)) qa; moved (0 * (21/2)) qb; moved (1 * (21/2)) qa; moved (1 * (21/2)) qb] with (copies p 1 [qa; qb]).
      apply (Rsum_ge_one (fun q => weight p X (q_x q))); [|apply in_copies; rewrite <- El; exact Hq]. intros y _. apply w_nonneg. }
    assert (MP : 0 < nd_m nd) by (rewrite M; change (particle_mass p) with 1; lra). destruct (Nw MP) as (free & mu & F & _ & B).
    unfold boundaryCollision, objects_loop, plates_loop in B. change (objects p) with (@nil (Obj R)) in B. change (s_plates s0) with (@nil (Plate R)) in B. cbn [foldM bind fold_left] in B. apply Ok_inj in B. cbn [fold_left] in B. rewrite <- B.
    specialize (F 0%nat ltac:(cbn; lia)). rewrite Gv, vget_zero in F by (cbn; lia). unfold internal in F. rewrite Rsum_zero in F.
    2:{ intros y Hy. unfold sum_axes. apply Rsum_zero. intros i Hi. apply in_seq in Hi. assert (Et : q_tau y = mzero) by (repeat (destruct Hy as [<-|Hy]; [reflexivity|]); destruct Hy).
        rewrite Et, mget_zero by (cbn in *; lia). ring. }
    assert (E : vget free 0 = projected p [moved (-1 * (21/2)) qa; moved (-1 * (21/2)) qb; moved (0 * (21/2)) qa; moved (0 * (21/2)) qb; moved (1 * (21/2)) qa; moved (1 * (21/2)) qb] X 0) by (apply Rmult_eq_reg_l with (nd_m nd); lra).
    rewrite E. unfold projected.
    assert (Cr : forall v B x, carried p v B x X 0 = vget v 0) by (intros; unfold carried; cbn [flip_ratio p odd_p]; destruct (Rlt_dec 0 0); [lra|ring]).
    set (S := Rsum (fun q => weight p X (q_x q)) _) in *. unfold Rsum in S |- *. cbn [fold_right map] in S |- *. rewrite !WV, !Cr.
    assert (ES : S = ny * (N2 (1/2 - 21/2 - IZR a) + N2 (10 - 21/2 - IZR a) + N2 (1/2 - IZR a) + N2 (10 - IZR a) + N2 (1/2 + 21/2 - IZR a) + N2 (10 + 21/2 - IZR a))).
    { unfold S. rewrite !WV. change (vget (q_x qa) 0) with (1/2). change (vget (q_x qb) 0) with 10. change (vget (q_x qa) 1) with 5. change (vget (q_x qb) 1) with 5. fold ny.
      replace (1/2 + -1 * (21/2) - IZR a) with (1/2 - 21/2 - IZR a) by ring. replace (10 + -1 * (21/2) - IZR a) with (10 - 21/2 - IZR a) by ring. replace (1/2 + 0 * (21/2) - IZR a) with (1/2 - IZR a) by ring. replace (10 + 0 * (21/2) - IZR a) with (10 - IZR a) by ring.
      replace (1/2 + 1 * (21/2) - IZR a) with (1/2 + 21/2 - IZR a) by ring. replace (10 + 1 * (21/2) - IZR a) with (10 + 21/2 - IZR a) by ring. ring. }
    change (vget (q_x qa) 0) with (1/2). change (vget (q_x qb) 0) with 10. change (vget (q_x qa) 1) with 5. change (vget (q_x qb) 1) with 5. fold ny.
    cbn [moved q_v qa qb]. change (vget (e2 1 0) 0) with 1. rewrite vget_zero by (cbn; lia).
    replace (1/2 + -1 * (21/2) - IZR a) with (1/2 - 21/2 - IZR a) by ring. replace (1/2 + 0 * (21/2) - IZR a) with (1/2 - IZR a) by ring. replace (1/2 + 1 * (21/2) - IZR a) with (1/2 + 21/2 - IZR a) by ring.
    rewrite ES in SP |- *. set (tot := N2 (1/2 - 21/2 - IZR a) + N2 (10 - 21/2 - IZR a) + N2 (1/2 - IZR a) + N2 (10 - IZR a) + N2 (1/2 + 21/2 - IZR a) + N2 (10 + 21/2 - IZR a)) in *.
    assert (TP : 0 < tot) by nra. clearbody tot. field. lra. }
  destruct l1 as [|qa1 [|qb1 [|]]]; try discriminate.
  destruct (F2_at _ _ _ _ _ PL 0%nat qa qa1 eq_refl eq_refl) as (ua & (ka & _ & Eua & _) & [_ _ Va _ _]).
  destruct (F2_at _ _ _ _ _ PL 1%nat qb qb1 eq_refl eq_refl) as (ub & (kb & _ & Eub & _) & [_ _ Vb _ _]).
  specialize (Va 0%nat ltac:(cbn; lia)). specialize (Vb 0%nat ltac:(cbn; lia)). unfold blend in Va, Vb. change (flip_ratio p) with 0 in Va, Vb.
  destruct (Rlt_dec 0 (-1)); [lra|]. destruct (Rlt_dec 0 0); [lra|]. rewrite Rmult_0_l, Rplus_0_l, Rminus_0_r, Rmult_1_l in Va, Vb.
  rewrite (interp_seen _ GL p axes (q_x qa) grid _ (fun X => 3/4 + 1/2 * (vget X 0 - vget (q_x qa) 0)) Lg) in Va.
  2:{ intros j X nd Hj Hn Hw. destruct (NV qa j X nd (or_introl eq_refl) Hj Hn Hw) as (a & b & Xa & Pa & Vn). rewrite Xa. change (vget (q_x qa) 0) with (1/2) in *. cbv zeta in Vn.
      assert (Ra : (a = 0 \/ a = 1)%Z).
      { assert (-1 < a)%Z by (apply lt_IZR; apply Rnot_le_lt; intros Q; rewrite (Z0 (1/2 - IZR a)) in Pa; lra). assert (a < 2)%Z by (apply lt_IZR; apply Rnot_le_lt; intros Q; rewrite (Z0 (1/2 - IZR a)) in Pa; lra). lia. }
      destruct Ra as [-> | ->].
      - rewrite (Z0 (1/2 - 21/2 - 0)), (Z1 (10 - 21/2 - 0)), (Z1 (1/2 - 0)), (Z0 (10 - 0)), (Z0 (1/2 + 21/2 - 0)), (Z0 (10 + 21/2 - 0)) in Vn by lra. lra.
      - rewrite (Z0 (1/2 - 21/2 - 1)), (Z0 (10 - 21/2 - 1)), (Z1 (1/2 - 1)), (Z0 (10 - 1)), (Z0 (1/2 + 21/2 - 1)), (Z0 (10 + 21/2 - 1)) in Vn by lra. lra. }
  rewrite (interp_seen _ GL p axes (q_x qb) grid _ (fun X => 1/7 + (3/7 * (vget X 0 - vget (q_x qb) 0) + 2/7 * ((vget X 0 - vget (q_x qb) 0) * (vget X 0 - vget (q_x qb) 0)))) Lg) in Vb.
  2:{ intros j X nd Hj Hn Hw. destruct (NV qb j X nd (or_intror (or_introl eq_refl)) Hj Hn Hw) as (a & b & Xa & Pa & Vn). rewrite Xa. change (vget (q_x qb) 0) with 10 in *. cbv zeta in Vn.
      assert (Ra : (a = 9 \/ a = 10 \/ a = 11)%Z).
      { assert (8 < a)%Z by (apply lt_IZR; apply Rnot_le_lt; intros Q; rewrite (Z0 (10 - IZR a)) in Pa; lra). assert (a < 12)%Z by (apply lt_IZR; apply Rnot_le_lt; intros Q; rewrite (Z0 (10 - IZR a)) in Pa; lra). lia. }
      destruct Ra as [-> | [-> | ->]].
      - rewrite (Z0 (1/2 - 21/2 - 9)), (Z0 (10 - 21/2 - 9)), (Z0 (1/2 - 9)), (Z3 (10 - 9)), (Z0 (1/2 + 21/2 - 9)), (Z0 (10 + 21/2 - 9)) in Vn by lra. lra.
      - replace (10 - 10) with 0 in Vn by ring. rewrite (Z0 (1/2 - 21/2 - 10)), (Z0 (10 - 21/2 - 10)), (Z0 (1/2 - 10)), Z2, (Z3 (1/2 + 21/2 - 10)), (Z0 (10 + 21/2 - 10)) in Vn by lra. lra.
      - replace (1/2 + 21/2 - 11) with 0 in Vn by field. rewrite (Z0 (1/2 - 21/2 - 11)), (Z0 (10 - 21/2 - 11)), (Z0 (1/2 - 11)), (Z3 (10 - 11)), Z2, (Z0 (10 + 21/2 - 11)) in Vn by lra. lra. }
  assert (Ca : Covered p axes (q_x qa)) by (apply Cov; now left). assert (Cb : Covered p axes (q_x qb)) by (apply Cov; right; now left).
  assert (Ya : vget (q_v ua) 0 = 3/4).
  { rewrite Va, (Rsum_ext _ (fun X => 3/4 * weight p X (q_x qa) + 1/2 * (weight p X (q_x qa) * (vget X 0 - vget (q_x qa) 0)))) by (intros; ring).
    rewrite Rsum_plus, !Rsum_scal, (m_1 p Hdx axes GO), (m_x p Hdx axes GO) by (auto; cbn; lia). lra. }
  assert (Yb : vget (q_v ub) 0 = 3/14).
  { rewrite Vb, (Rsum_ext _ (fun X => 1/7 * weight p X (q_x qb) + (3/7 * (weight p X (q_x qb) * (vget X 0 - vget (q_x qb) 0)) + 2/7 * (weight p X (q_x qb) * ((vget X 0 - vget (q_x qb) 0) * (vget X 0 - vget (q_x qb) 0)))))) by (intros; ring).
    rewrite !Rsum_plus, !Rsum_scal, (m_1 p Hdx axes GO), (m_x p Hdx axes GO), (m_xx p Hdx axes GO) by (auto; discriminate || (cbn; lia)). cbn. lra. }
  exists af, axes, s1. cbv zeta. do 3 (split; [assumption|]). split; [cbn; lra|]. split; [reflexivity|]. split; [reflexivity|]. split; [exact In0|]. split; [exact RC|]. split; [exact H|]. split; [exact Gv|].
  split; [cbn; lra|]. rewrite E1. unfold pack. cbn [p_v map Rsum fold_right]. rewrite Eua, Eub. cbn [moved q_v]. unfold Rsum. cbn [map fold_right]. rewrite Ya, Yb. cbn. lra.
Qed.
Print Assumptions C82_cells_refuted.
