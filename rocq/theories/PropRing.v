(** * PropRing: C81, a step with periodic boundaries is a step of the periodic body. *)
From Coq Require Import Reals ZArith Lra Lia List Bool Permutation.
From Verif Require Import Num NumR Tools Lin Types Remesh Objects Transfer Rma Plastic Pbc Step Spec SpecStep SpecMech SpecMpm SpecLocal SpecPbc SpecMaterial SpecRing LinProofs ResProofs
  KernelProofs GridProofs StencilProofs RemeshProofs GradProofs PloopProofs PbcProofs StepProofs StepMech StepField TimeProofs PlateProofs PlasticModels MpmProofs IndexProofs BalanceProofs TwinProofs LocalProofs RingProofs ExStep ExMech PropStep PropMaterial PropPbc.
Import ListNotations.
Local Open Scope R_scope.

Lemma wrapped_wrap : forall (G : Geo R) (GL : GeoLaws G) p (x : TV) q1, use_pbc p = true -> q_x q1 = pbc_wrap p x -> wrapped p (set_x q1 x) q1.
Proof.
  intros G GL p x q1 Hp E. destruct q1 as [y v pc fl h F B t]. cbn [q_x] in E. unfold pbc_wrap in E. rewrite Hp in E. revert E. rewrite nofZ_R. numR. intros E.
  destruct (Rltb_spec (Lx p) (vget x 0)) as [H|H]; [exists (-1)%Z|destruct (Rltb_spec (vget x 0) 0) as [H'|H']; [exists 1%Z|exists 0%Z]]; subst y; (split; [lia|]); unfold moved, set_x; cbn [q_x q_v q_pic q_flip q_h q_F q_B q_tau].
  - split; [f_equal; unfold shift_x; f_equal; ring|]. intros C. rewrite vget_set, Nat.eqb_refl by apply dim0. lra.
  - split; [f_equal; unfold shift_x; f_equal; ring|]. intros C. rewrite vget_set, Nat.eqb_refl by apply dim0. lra.
  - split; [f_equal; rewrite Rmult_0_l; symmetry; apply shift_zero|]. lra.
Qed.

(** The grid of a periodic box is made once. *)
Lemma ring_axes : forall (G : Geo R) svd uabs af p sc s0 s1 l axes (Rn : Run svd uabs af p sc s0 s1 l), use_pbc p = true ->
  remeshFixed af p 4 = Ok axes -> s_step s0 = 0%Z \/ s_axes s0 = axes -> s_axes s1 = axes.
Proof.
  intros G svd uabs af p sc s0 s1 l axes Rn Pb Ea Ax. destruct (ru_remesh _ _ _ _ _ _ _ _ Rn) as (s' & E & A & _). rewrite (ru_saxes _ _ _ _ _ _ _ _ Rn), <- A.
  unfold remesh in E. rewrite Pb in E. cbn [with_dt s_step] in E. destruct (Z.eqb_spec (s_step s0) 0) as [Q|Q].
  - rewrite Ea in E. cbn [bind] in E. apply Ok_inj in E. now subst s'.
  - apply Ok_inj in E. subst s'. destruct Ax; [congruence|]. exact H.
Qed.

(** Any material and transfer scheme, any thread schedule; the particles are in the box. *)
Theorem C81_step : forall (G : Geo R), two_or_three G -> forall svd uabs af p sc s0 s1 n axes,
  0 < dx p -> 0 < particle_mass p -> 8 * dx p <= Lx p -> use_pbc p = true -> use_mibf p = false -> change_pos p = false ->
  valid_sched sc -> well_formed s0 n -> remeshFixed af p 4 = Ok axes -> GridOk p axes -> s_step s0 = 0%Z \/ s_axes s0 = axes ->
  let l := particles (s_p s0) in let l1 := particles (s_p s1) in let pos := positions axes in
  (forall q, In q l -> 0 <= vget (q_x q) 0 < Lx p) -> (forall q, In q (copies p 1 l) -> in_grid p axes (q_x q) -> regular_cloud p axes [q_x q]) ->
  advanceStep svd uabs af p sc s0 = Ok s1 ->
  s_axes s1 = axes /\ exists grid, length grid = length pos /\
    (forall K, (1 <= K)%nat -> forall j X nd, nth_error pos j = Some X -> nth_error grid j = Some nd ->
       - kernel_radius p < vget X 0 < Lx p + kernel_radius p -> node_law p (s_plates s0) (s_dt s1) (s_grav s1) (copies p K l) X nd) /\
    (if use_musl p then Forall2 (musl_law p (combine l l1)) (combine pos grid) (s_nodes s1) else s_nodes s1 = grid) /\
    (forall K, (1 <= K)%nat -> Forall2 (fun q q1 => exists u, wrapped p u q1 /\
       particle_law svd uabs p (s_dt s1) (copies p K l) (combine pos grid) (combine pos (s_nodes s1)) q u) l l1).
Proof.
  intros G HG svd uabs af p sc s0 s1 n axes Hdx Hm HL Pb Hu Hc V W Ea GO Ax l0 l1 pos In0 RC H. pose proof (geolaws G HG) as GL.
  destruct (wf_pack s0 n W) as (l & L & E & N & F). destruct (step_run svd uabs af p sc s0 s1 l V E N F H) as [Rn].
  assert (A1 : s_axes s1 = axes) by (eapply ring_axes; eauto). split; [exact A1|].
  assert (El : l0 = l) by (unfold l0; rewrite E; apply particles_pack). rewrite El in *. clear l0 El.
  set (gs := ghosts p 4 l (sc_pbc sc (length l))). pose proof (vs_pbc sc V (length l)) as Ps.
  pose proof (r_cov svd uabs af p sc s0 s1 l Rn Hdx ltac:(rewrite A1; exact GO)) as Cov. rewrite A1 in Cov.
  assert (Img : forall g, In g gs -> exists q, In q l /\ exists d, (d = Lx p \/ d = - Lx p) /\ g = moved d q /\ - 4 * dx p <= vget (q_x g) 0 < Lx p + 4 * dx p).
  { intros g Hg. apply (ghosts_In p 4 l _ g Ps) in Hg. destruct Hg as (q & Hq & x' & Ex & ->). exists q. split; auto. specialize (In0 q Hq).
    destruct (image_cases G p (q_x q) Hdx HL In0) as [(C & Ei)|[(C & Ei)|(C & Ei)]]; rewrite Ex in Ei; [| |discriminate].
    - assert (x' = shift_x (q_x q) (Lx p)) by congruence. subst x'. exists (Lx p). split; auto. split; [reflexivity|]. cbn [set_x q_x]. rewrite shift_0. lra.
    - assert (x' = shift_x (q_x q) (- Lx p)) by congruence. subst x'. exists (- Lx p). split; auto. split; [reflexivity|]. cbn [set_x q_x]. rewrite shift_0. lra. }
  assert (InC : forall g, In g (l ++ gs) -> In g (copies p 1 l)).
  { intros g Hg. unfold copies. apply in_flat_map. cbn [upto seq map Nat.mul Nat.add]. apply in_app_or in Hg. destruct Hg as [Hg|Hg].
    - exists 0%Z. split; [right; left; reflexivity|]. rewrite Rmult_0_l. apply in_map_iff. exists g. split; auto. apply moved_zero.
    - destruct (Img g Hg) as (q & Hq & d & [->| ->] & -> & _).
      + exists 1%Z. split; [right; right; left; reflexivity|]. rewrite Rmult_1_l. apply in_map_iff. eauto.
      + exists (-1)%Z. split; [left; reflexivity|]. replace (IZR (-1) * Lx p) with (- Lx p) by ring. apply in_map_iff. eauto. }
  assert (Covg : forall q, In q (l ++ gs) -> Covered p (s_axes s1) (q_x q)).
  { intros g Hg. rewrite A1. apply in_app_or in Hg. destruct Hg as [Hg|Hg]; [now apply Cov|]. destruct (Img g Hg) as (q & Hq & d & _ & -> & R0). intros k a Ha.
    assert (Hk : (k < dim)%nat) by (rewrite <- (go_dim _ _ GO); apply nth_error_Some; congruence).
    destruct (Nat.eq_dec k 0) as [->|K0]; [|cbn [moved q_x]; rewrite shift_k by lia; exact (Cov q Hq k a Ha)].
    unfold remeshFixed in Ea. eapply mapM_seq_nth in Ea; eauto. unfold remeshFixed_axis in Ea. apply mk_axis_spec in Ea; auto. destruct Ea as (C & _ & S2 & _).
    rewrite ?nofZ_R in *. revert C S2. numR. intros C S2. apply covered_iff; auto. rewrite C. simpl Z.add in *. split; lra. }
  assert (RC' : forall q, In q (l ++ gs) -> no_tiny_weights p axes (q_x q) /\ (spline p = Deg1 -> off_grid_lines p axes (q_x q))) by (intros q Hq; apply (RC q (InC q Hq)); [apply in_grid_covered; auto; rewrite <- A1; now apply Covg|now left]).
  assert (Lgs : length (p_x (ext l gs)) = length (l ++ gs)) by (cbn [ext p_x]; rewrite <- map_app; apply map_length).
  assert (Sc : thread_schedule (sc_p2g sc (length (l ++ gs))) (length (l ++ gs))) by apply (vs_p2g sc V).
  pose proof (ru_p2g _ _ _ _ _ _ _ _ Rn) as E1. unfold grid_particles in E1. rewrite Pb in E1. fold gs in E1. rewrite Lgs, (p2g_ext p Hu) in E1 by exact Sc. rewrite <- (ru_saxes _ _ _ _ _ _ _ _ Rn) in E1.
  destruct (step_laws_on svd uabs af p sc s0 s1 n l Rn (l ++ gs) (sc_p2g sc (length (l ++ gs))) Hdx Hm V W E H ltac:(rewrite A1; exact GO) Covg) as (grid & NL & ML & PL); auto.
  { intros q Hq. rewrite A1. now apply RC'. }
  { intros Hs q Hq. rewrite A1. apply off_lines_iff. now apply RC'. }
  { intros q Hq. apply in_or_app. now left. }
  rewrite A1 in NL, ML, PL. fold l1 in ML, PL. fold pos in NL, ML, PL. exists grid. split; [symmetry; exact (F2_length _ _ _ _ _ NL)|].
  split; [|split; [exact ML|]].
  - intros K HK j X nd Hj Hn HX. apply (ring_node p Hdx HL X HX l _ K HK In0 Ps Hu). exact (F2_at _ _ _ _ _ NL j X nd Hj Hn).
  - intros K HK. eapply F2_impl; [|exact PL]. intros q q1 Hq (x & Ex & PLq). exists (set_x q1 x). split; [apply wrapped_wrap; auto|].
    destruct PLq as [P1 P1r P2 P3 P4]. split; auto. intros k Hk. rewrite (P2 k Hk). f_equal. unfold interpolated. apply Rsum_ext. intros Xn _.
    destruct (Rlt_dec (Rabs (vget (q_x q) 0 - vget (fst Xn) 0)) (kernel_radius p)) as [Hr|Hr].
    + rewrite (ring_projected p Hdx HL (fst Xn)) with (sched := sc_pbc sc (length l)); auto. specialize (In0 q Hq). unfold Rabs in Hr. destruct (Rcase_abs _); lra.
    + rewrite (weight_outside p Hdx (fst Xn) (q_x q) 0 dim0) by lra. ring.
Qed.
Print Assumptions C81_step.

(** A body that moves as one and is free of stress: the nodes that a particle sees, and the new velocity. *)
Section Uniform.
  Context {G : Geo R} {GL : GeoLaws G}.
  Variables (svd : TM -> TM * TV * TM) (uabs : R -> R) (p : Par R) (axes : list (Axis R)) (grid : list (Node R)) (l : list (P1 R)) (c : TV) (dt : R) (grav : TV).
  Hypothesis Hdx : 0 < dx p.
  Hypothesis Hm : 0 < particle_mass p.
  Hypothesis GO : GridOk p axes.
  Hypothesis Ob : objects p = [].
  Hypothesis Lg : length grid = length (positions axes).
  Hypothesis Hun : forall q, In q l -> q_v q = c /\ q_B q = mzero /\ q_tau q = mzero.
  Hypothesis In0 : forall q, In q l -> 0 <= vget (q_x q) 0 < Lx p.
  Hypothesis NL : forall j X nd, nth_error (positions axes) j = Some X -> nth_error grid j = Some nd ->
       - kernel_radius p < vget X 0 < Lx p + kernel_radius p -> node_law p [] dt grav (copies p 1 l) X nd.
  Let v1 := vadd c (lscale dt grav).
  Lemma in_copies : forall q, In q l -> In q (copies p 1 l).
  Proof. intros q Hq. unfold copies. apply in_flat_map. exists 0%Z. split; [right; left; reflexivity|]. rewrite Rmult_0_l. apply in_map_iff. exists q. split; auto. apply moved_zero. Qed.
  Lemma seen_range : forall q X, In q l -> 0 < weight p X (q_x q) -> - kernel_radius p < vget X 0 < Lx p + kernel_radius p.
  Proof. intros q X Hq Hw. pose proof (weight_inside p Hdx X (q_x q) Hw 0 dim0) as Hr. specialize (In0 q Hq). unfold Rabs in Hr. destruct (Rcase_abs _); lra. Qed.
  Lemma uniform_nodes : forall q, In q l -> seen_by p axes (q_x q) grid (fun X nd => nd_v nd = v1 /\ forall k, (k < dim)%nat -> projected p (copies p 1 l) X k = vget c k).
  Proof.
    assert (Cp : forall q, In q (copies p 1 l) -> q_v q = c /\ q_B q = mzero /\ q_tau q = mzero).
    { intros q Hq. unfold copies in Hq. apply in_flat_map in Hq. destruct Hq as (k & _ & Hq). apply in_map_iff in Hq. destruct Hq as (q' & <- & Hq'). exact (Hun q' Hq'). }
    intros q Hq j X nd Hj Hn Hw. destruct (NL j X nd Hj Hn (seen_range q X Hq Hw)) as [M _ Nw]. set (S := Rsum (fun q => weight p X (q_x q)) (copies p 1 l)) in *.
    assert (SP : 0 < S). { apply Rlt_le_trans with (1 := Hw). apply (Rsum_ge_one (fun q => weight p X (q_x q))); [|now apply in_copies]. intros y _. apply w_nonneg; auto. }
    assert (PR : forall k, (k < dim)%nat -> projected p (copies p 1 l) X k = vget c k).
    { intros k Hk. unfold projected. fold S. rewrite (Rsum_ext _ (fun q => vget c k * weight p X (q_x q))).
      - rewrite Rsum_scal. fold S. field. lra.
      - intros y Hy. destruct (Cp y Hy) as (-> & -> & _). unfold carried. rewrite (Rmult_comm (vget c k)). f_equal. destruct (Rlt_dec _ _); [|ring].
        unfold sum_axes. rewrite Rsum_zero; [ring|]. intros i Hi. apply in_seq in Hi. rewrite mget_zero by (auto; lia). ring. }
    split; auto. assert (MP : 0 < nd_m nd) by (rewrite M; now apply Rmult_lt_0_compat). destruct (Nw MP) as (free & mu & A & _ & B).
    unfold boundaryCollision, objects_loop, plates_loop in B. rewrite Ob in B. cbn [foldM bind fold_left] in B. apply Ok_inj in B. cbn [fold_left] in B. rewrite <- B. apply vext. intros k Hk.
    specialize (A k Hk). rewrite (PR k Hk) in A. unfold internal in A. rewrite Rsum_zero in A.
    - unfold v1. rewrite vget_add, vget_lscale by auto. apply Rmult_eq_reg_l with (nd_m nd); lra.
    - intros y Hy. destruct (Cp y Hy) as (_ & _ & ->). unfold sum_axes. apply Rsum_zero. intros i Hi. apply in_seq in Hi. rewrite mget_zero by (auto; lia). ring.
  Qed.
  Lemma uniform_vel : forall q u gr', In q l -> Covered p axes (q_x q) -> particle_law svd uabs p dt (copies p 1 l) (combine (positions axes) grid) gr' q u -> q_v u = v1.
  Proof.
    intros q u gr' Hq Cov [_ _ P2 _ _]. pose proof (uniform_nodes q Hq) as Nv. destruct (Hun q Hq) as (Ev & _). apply vext. intros k' Hk. rewrite (P2 k' Hk), Ev.
    rewrite (interp_value p Hdx axes (q_x q) grid GO Cov Lg) with (f := fun X nd => vget (nd_v nd) k' - projected p (copies p 1 l) X k') (c := vget v1 k' - vget c k').
    2:{ intros a X nd Ha Hn Hw. destruct (Nv a X nd Ha Hn Hw) as (-> & ->); auto. }
    rewrite (interp_value p Hdx axes (q_x q) grid GO Cov Lg) with (f := fun X nd => vget (nd_v nd) k') (c := vget v1 k').
    2:{ intros a X nd Ha Hn Hw. now destruct (Nv a X nd Ha Hn Hw) as (-> & _). }
    unfold blend. destruct (Rlt_dec _ _); [reflexivity|]. destruct (Rlt_dec _ _); ring.
  Qed.
End Uniform.

(** Without MUSL: a stress-free body in uniform motion stays undeformed, also across the seam. *)
Theorem C81_uniform_motion : forall (G : Geo R), two_or_three G -> forall svd uabs af p sc s0 s1 n axes (c : TV),
  0 < dx p -> 0 < particle_mass p -> 8 * dx p <= Lx p -> use_pbc p = true -> use_mibf p = false -> change_pos p = false ->
  valid_sched sc -> well_formed s0 n -> remeshFixed af p 4 = Ok axes -> GridOk p axes -> s_step s0 = 0%Z \/ s_axes s0 = axes ->
  (forall q, In q (particles (s_p s0)) -> 0 <= vget (q_x q) 0 < Lx p) ->
  (forall q, In q (copies p 1 (particles (s_p s0))) -> in_grid p axes (q_x q) -> regular_cloud p axes [q_x q]) ->
  advanceStep svd uabs af p sc s0 = Ok s1 ->
  objects p = [] -> s_plates s0 = [] -> plastic_model p = NoPlasticity -> use_musl p = false ->
  (forall q, In q (particles (s_p s0)) -> q_v q = c /\ q_B q = mzero /\ q_tau q = mzero) ->
  p_F (s_p s1) = p_F (s_p s0) /\ forall v, In v (p_v (s_p s1)) -> v = vadd c (lscale (s_dt s1) (s_grav s1)).
Proof.
  intros G HG svd uabs af p sc s0 s1 n axes c Hdx Hm HL Pb Hu Hc V W Ea GO Ax In0 RC H Ob Pl Pm Mu Hun. pose proof (geolaws G HG) as GL.
  destruct (C81_step G HG svd uabs af p sc s0 s1 n axes Hdx Hm HL Pb Hu Hc V W Ea GO Ax In0 RC H) as (A1 & grid & Lg & NL & ML & PL). rewrite Mu in ML. rewrite ML in PL.
  destruct (wf_pack s0 n W) as (l & L & E & N & F). destruct (step_run svd uabs af p sc s0 s1 l V E N F H) as [Rn].
  pose proof (r_cov svd uabs af p sc s0 s1 l Rn Hdx ltac:(rewrite A1; exact GO)) as Cov. rewrite A1 in Cov. rewrite E, particles_pack in *.
  pose proof (C51_step_keeps_arrays G svd uabs af p sc s0 s1 n V W H) as W1. destruct (wf_pack s1 n W1) as (l1 & L1 & E1 & _). rewrite E1, particles_pack in *.
  set (v1 := vadd c (lscale (s_dt s1) (s_grav s1))). specialize (PL 1%nat (le_n _)). specialize (NL 1%nat (le_n _)).
  rewrite Pl in NL. pose proof (uniform_nodes p axes grid l c (s_dt s1) (s_grav s1) Hdx Hm Ob Lg Hun In0 NL) as Nv. fold v1 in Nv. pose proof (in_copies p l) as InC.
  assert (K : Forall2 (fun q q1 => q_F q1 = q_F q /\ q_v q1 = v1) l l1).
  { eapply F2_impl; [|exact PL]. intros q q1 Hq (u & (k & _ & Eu & _) & PLq). specialize (Cov q Hq). specialize (Nv q Hq). rewrite Eu. cbn [moved q_F q_v]. split.
    - destruct PLq as [_ _ _ _ (Lm & o & HLm & Ho & -> & _)]. assert (Z : Lm = mzero).
      { apply mext. intros i j Hi Hj. rewrite (HLm i j Hi Hj), mget_zero by auto. rewrite (Rsum_ext _ (fun Xn => dweight p (fst Xn) (q_x q) j * vget (nd_v (snd Xn)) i)) by (intros; ring).
        rewrite (grad_value p Hdx axes (q_x q) grid GO Cov Lg) with (f := fun _ nd => vget (nd_v nd) i) (a := vget v1 i) (b := 0) (m := j); auto.
        - now destruct (Nat.eqb j j).
        - intros Hs. apply off_lines_iff. apply (RC q (InC q Hq)); [apply in_grid_covered; auto|now left|exact Hs].
        - intros a X nd Ha Hn Hw. destruct (Nv a X nd Ha Hn Hw) as (-> & _). ring. }
      subst Lm. cbv zeta in Ho. unfold plasticity in Ho. destruct (svd _) as ((U, sg), Vm). apply bind_Ok in Ho. destruct Ho as (r & Hr & Ho). unfold return_map in Hr. rewrite Pm in Hr.
      apply Ok_inj in Hr. subst r. cbn [r_upd] in Ho. apply Ok_inj in Ho. rewrite <- Ho. cbn [o_F]. apply mext. intros i j Hi Hj. unfold increment.
      replace (madd mident (mscale mzero (s_dt s1))) with (mident : TM); [now rewrite mmul_id_l|]. apply mext. intros a b Ha Hb. rewrite mget_add, mget_scale, mget_zero by auto. ring.
    - apply (uniform_vel svd uabs p axes grid l c (s_dt s1) (s_grav s1) Hdx Hm GO Ob Lg Hun In0 NL q u _ Hq Cov PLq). }
  unfold pack. cbn [p_F p_v]. split.
  - clear - K. induction K as [|q q1 l l1 (A & _) _ IH]; cbn [map]; congruence.
  - intros v Hv. apply in_map_iff in Hv. destruct Hv as (q1 & <- & Hq1). destruct (F2_in_r _ _ _ _ _ K q1 Hq1) as (q & _ & _ & B). exact B.
Qed.
Print Assumptions C81_uniform_motion.

(** ** Two particles next to the two ends of a box of ten cells *)
Definition ring_p (musl : bool) : @Par R (Geo2 R) :=
  {| spline := Deg2; end_frame := 1; use_pbc := true; change_pos := false; gravity_special := false;
     save_sim := true; save_grid := false; use_mibf := false; use_musl := musl;
     grid_ref := vtab (fun _ => 20000000000); gravity0 := vzero;
     min_dt := 1/100000000000000; fps := 1000; cfl := 1/2; cfl_elastic := 1/2; flip_ratio := 1;
     rho := 1000; gravity_time := 0; Lx := 10; Ly := 10; Lz := 10;
     particle_mass := 1; particle_volume := 1; dx := 1;
     elastic_model := Hencky; plastic_model := NoPlasticity; hardening_law := ExpoImpl;
     use_pradhana := true; young := 1000; nu := 3/10; stress_tolerance := 1/100000; xi := 0;
     q_max := 100; q_min := 100; p_min := -100000000000000000000;
     Mfric := 1; q_cohesion := 0; visc_exponent := 1; visc_time := 0; use_dl := false;
     beta := 0; p0 := 1000; rho_s := 2500; grain_diameter := 1/1000; I_ref := 279/1000;
     mu_1 := 38/100; mu_2 := 64/100; q_prefac := 1 / sqrt 2; objects := [] |}.
Lemma ring_lattice : forall musl af axes, remeshFixed (G := Geo2 R) af (ring_p musl) 4 = Ok axes -> forall j X, GridOk (ring_p musl) axes -> nth_error (positions axes) j = Some X ->
  exists a b : Z, vget (Geo := Geo2 R) X 0 = IZR a /\ vget (Geo := Geo2 R) X 1 = IZR b.
Proof.
  intros musl af axes Ea j X GO Hj. apply nth_error_In in Hj. unfold positions in Hj. apply in_map_iff in Hj. destruct Hj as (c & <- & Hc). rewrite !vget_tab by (cbn; lia).
  unfold remeshFixed in Ea. pose proof (mapM_length _ _ _ Ea) as L. destruct axes as [|a [|b [|]]]; try discriminate.
  pose proof (mapM_seq_nth _ _ _ _ 0%nat a Ea eq_refl) as Fa. pose proof (mapM_seq_nth _ _ _ _ 1%nat b Ea eq_refl) as Fb. cbn [remeshFixed_axis] in Fa, Fb.
  apply mk_axis_spec in Fa; [|cbn; lra]. apply mk_axis_spec in Fb; [|cbn; lra]. destruct Fa as (Ca & La & _). destruct Fb as (Cb & Lb & _).
  apply lattice_co in La. apply lattice_co in Lb. cbn [lattice_points] in Hc. apply in_flat_map in Hc. destruct Hc as (c0 & Hc0 & Hc). apply in_map_iff in Hc. destruct Hc as (r & <- & Hc).
  apply in_flat_map in Hc. destruct Hc as (c1 & Hc1 & Hc). apply in_map_iff in Hc. destruct Hc as (r' & <- & _). cbn [nth].
  rewrite La in Hc0. rewrite Lb in Hc1. apply in_map_iff in Hc0. apply in_map_iff in Hc1. destruct Hc0 as (i0 & <- & _). destruct Hc1 as (i1 & <- & _).
  rewrite Ca, Cb. exists (Z.of_nat i0 - 5)%Z, (Z.of_nat i1 - 1)%Z. rewrite !minus_IZR, <- !INR_IZR_INZ. rewrite ?nofZ_R. numR. cbn [dx ring_p Z.add Pos.add]. split; lra.
Qed.
Lemma ring_regular : forall musl af axes, remeshFixed (G := Geo2 R) af (ring_p musl) 4 = Ok axes -> GridOk (ring_p musl) axes ->
  forall q, In q (copies (ring_p musl) 1 (particles pb_cloud)) -> in_grid (ring_p musl) axes (q_x q) -> regular_cloud (ring_p musl) axes [q_x q].
Proof.
  intros musl af axes Ea GO q Hq Ig x [<-|[]]. split; [|discriminate]. intros items it Es Hit.
  assert (C : Covered (ring_p musl) axes (q_x q)) by (apply in_grid_covered; [cbn; lra|exact Ig]).
  destruct (stencil_cov (ring_p musl) ltac:(cbn; lra) _ _ GO C) as (Es' & _ & S). rewrite Es in Es'. apply Ok_inj in Es'. subst items.
  rewrite (item_weight (ring_p musl) ltac:(cbn; lra) _ _ _ GO C Hit). 
  pose proof (stencil_pos (ring_p musl) ltac:(cbn; lra) axes _ it GO C Hit) as Ps. pose proof (sl_idx _ _ _ _ S it Hit) as Hx. 
  destruct (ring_lattice musl af axes Ea (Z.to_nat (it_idx it)) (it_x it) GO) as (a & b & Ha & Hb).
  { rewrite Ps. apply pos_at; auto. lia. }
  rewrite weight2 by reflexivity. rewrite Ha, Hb. cbn [spline ring_p N dx].
  assert (Q : exists z0 z1 : Z, (vget (q_x q) 0 - IZR a) / 1 = IZR z0 / 2 /\ (vget (q_x q) 1 - IZR b) / 1 = IZR z1 / 2).
  { unfold copies in Hq. apply in_flat_map in Hq. destruct Hq as (k & _ & Hq). apply in_map_iff in Hq. destruct Hq as (q' & <- & Hq'). cbn [moved q_x Types.Lx ring_p]. rewrite shift_0.
    unfold shift_x. rewrite vget_set by (cbn; lia). cbn [Nat.eqb].
    destruct Hq' as [<-|[<-|[]]]; cbn [q_x]; [exists (1 + 20 * k - 2 * a)%Z, (10 - 2 * b)%Z|exists (19 + 20 * k - 2 * a)%Z, (10 - 2 * b)%Z];
      rewrite !minus_IZR, ?plus_IZR, !mult_IZR; cbn; split; lra. }
  destruct Q as (z0 & z1 & -> & ->). destruct (N2_half z0) as [->|H0]; [left; ring|]. destruct (N2_half z1) as [->|H1]; [left; ring|]. right. nra.
Qed.

Definition ring_q (x : R) : @P1 R (Geo2 R) := mkP1 (G := Geo2 R) (e2 x 5) (e2 3 0) vzero vzero (mkHist 0 0 0 0 0 0) mident mzero mzero.
Lemma N2_at : forall u, (Rabs u = 1/2 -> N2 u = 1/2) /\ (3/2 <= Rabs u -> N2 u = 0).
Proof.
  intros u. unfold N2. cbv zeta. rewrite ?nofZ_R. numR. cbn [nabs NumR]. split; intros H.
  - destruct (Rltb_spec (Rabs u) (1/2)); [lra|]. destruct (Rltb_spec (Rabs u) (3/2)); [rewrite H; field|lra].
  - destruct (Rltb_spec (Rabs u) (1/2)); [lra|]. destruct (Rltb_spec (Rabs u) (3/2)); [lra|reflexivity].
Qed.

(** The hypotheses of C81 hold for this box, with and without MUSL. *)
Example C81_ex : forall musl svd uabs, exists af axes s1, let s0 := ex_state (ring_p musl) pb_cloud in
  well_formed s0 2 /\ remeshFixed af (ring_p musl) 4 = Ok axes /\ GridOk (ring_p musl) axes /\ (forall q, In q (particles (s_p s0)) -> 0 <= vget (q_x q) 0 < Lx (ring_p musl)) /\
  (forall q, In q (copies (ring_p musl) 1 (particles (s_p s0))) -> in_grid (ring_p musl) axes (q_x q) -> regular_cloud (ring_p musl) axes [q_x q]) /\
  advanceStep svd uabs af (ring_p musl) rev_sched s0 = Ok s1 /\
  (forall q, In q (particles (s_p s0)) -> q_v q = e2 3 0 /\ q_B q = mzero /\ q_tau q = mzero /\ q_F q = mident).
Proof.
  intros. set (p := ring_p musl). destruct (fixed_terminates (G := Geo2 R) p ltac:(cbn; lra) ltac:(cbn; lra) ltac:(cbn; lra) ltac:(cbn; lra)) as (af & T). destruct (T af (le_n _)) as (axes & Ea).
  assert (W : well_formed (ex_state p pb_cloud) 2) by (split; [constructor; reflexivity|split; [reflexivity|cbn; lia]]).
  destruct (C53_periodic_step_is_safe _ (or_introl eq_refl) svd uabs af p rev_sched (ex_state p pb_cloud) 2 axes ltac:(cbn; lra) eq_refl eq_refl rev_valid W ltac:(lia)
    (no_obstacles p eq_refl) (no_plasticity svd uabs p eq_refl) ltac:(cbn; lra) ltac:(cbn; lra) ltac:(cbn; lra) Ea (or_introl eq_refl)) as (s1 & E1 & A1 & GO).
  - intros x [<-|[<-|[]]]; cbn; repeat split; try lra; intros; discriminate.
  - exists af, axes, s1. cbv zeta. do 3 (split; [assumption|]). split; [intros q [<-|[<-|[]]]; cbn; lra|]. split; [exact (ring_regular musl af axes Ea GO)|]. split; [exact E1|].
    intros q [<-|[<-|[]]]; repeat split.
Qed.

(** With MUSL the seam is seen: the second projection (after the ghosts are gone) gives the nodes at the seam half the momentum, so the
    same body in uniform motion, free of stress, is strained by its first step. *)
Theorem C81_musl_refuted : forall svd uabs, exists af axes s1 F, let p := ring_p true in let s0 := ex_state p pb_cloud in
  remeshFixed af p 4 = Ok axes /\ GridOk p axes /\ well_formed s0 2 /\ (forall q, In q (particles (s_p s0)) -> 0 <= vget (q_x q) 0 < Lx p) /\ 8 * dx p <= Lx p /\
  (forall q, In q (particles (s_p s0)) -> q_v q = e2 3 0 /\ q_B q = mzero /\ q_tau q = mzero /\ q_F q = mident) /\
  advanceStep svd uabs af p rev_sched s0 = Ok s1 /\ 0 < s_dt s1 /\ nth_error (p_F (s_p s1)) 0 = Some F /\ mget F 0 0 = 1 + 3/2 * s_dt s1.
Proof.
  intros svd uabs. destruct (C81_ex true svd uabs) as (af & axes & s1 & W & Ea & GO & In0 & RC & H & Hun). set (p := ring_p true) in *. set (s0 := ex_state p pb_cloud) in *.
  pose proof (geolaws (Geo2 R) (or_introl eq_refl)) as GL. assert (Hdx : 0 < dx p) by (cbn; lra).
  destruct (C81_step _ (or_introl eq_refl) svd uabs af p rev_sched s0 s1 2 axes Hdx ltac:(cbn; lra) ltac:(cbn; lra) eq_refl eq_refl eq_refl rev_valid W Ea GO (or_introl eq_refl) In0 RC H)
    as (A1 & grid & Lg & NL & ML & PL).
  pose proof (step_dt_pos _ (or_introl eq_refl) svd uabs af p rev_sched s0 s1 ltac:(cbn; lra) H) as Dt.
  specialize (NL 1%nat (le_n _)). specialize (PL 1%nat (le_n _)). cbn [use_musl p ring_p] in ML.
  pose proof (C51_step_keeps_arrays _ svd uabs af p rev_sched s0 s1 2 rev_valid W H) as W1. destruct (wf_pack s1 2 W1) as (l1 & L1 & E1 & _).
  assert (Cov : forall q, In q (particles (s_p s0)) -> Covered p axes (q_x q)).
  { intros q Hq. apply (fixed_covers p Hdx af axes (q_x q) Ea); destruct Hq as [<-|[<-|[]]]; cbn; try lra; intros; discriminate. }
  rewrite E1, particles_pack in *. set (l := particles (s_p s0)) in *. assert (Gv : s_grav s1 = vzero) by (destruct (step_dt_grav svd uabs af p rev_sched s0 s1 H) as (_ & Eg & _); rewrite Eg; reflexivity).
  assert (Hun' : forall q, In q l -> q_v q = e2 3 0 /\ q_B q = mzero /\ q_tau q = mzero) by (intros q Hq; destruct (Hun q Hq) as (? & ? & ? & _); auto).
  assert (K : Forall2 (fun q q1 => vget (q_v q1) 0 = 3) l l1).
  { eapply F2_impl; [|exact PL]. intros q q1 Hq (u & (k & _ & Eu & _) & PLq). rewrite Eu. cbn [moved q_v].
    rewrite (uniform_vel svd uabs p axes grid l (e2 3 0) (s_dt s1) (s_grav s1) Hdx ltac:(cbn; lra) GO eq_refl Lg Hun' In0 NL q u _ Hq (Cov q Hq) PLq).
    rewrite vget_add, vget_lscale, Gv, vget_zero by (cbn; lia). cbn. ring. }
  destruct l1 as [|qa1 [|qb1 [|]]]; try discriminate. pose proof (F2_at _ _ _ _ _ K 0%nat _ qa1 eq_refl eq_refl) as Ka. pose proof (F2_at _ _ _ _ _ K 1%nat _ qb1 eq_refl eq_refl) as Kb. cbv beta in Ka, Kb. clear K.
  set (qa := ring_q (1/2)). set (qb := ring_q (19/2)). assert (El : l = [qa; qb]) by reflexivity.
  destruct (F2_at _ _ _ _ _ PL 0%nat qa qa1 eq_refl eq_refl) as (u & (k & _ & Eu & _) & [_ _ _ _ (Lm & o & HLm & Ho & Fo & _)]).
  assert (Nm : length (s_nodes s1) = length (positions axes)).
  { pose proof (F2_length _ _ _ _ _ ML) as Q. rewrite combine_length, Lg, Nat.min_id in Q. congruence. }
  assert (L00 : mget Lm 0 0 = 3/2).
  { rewrite (HLm 0%nat 0%nat) by (cbn; lia). rewrite (Rsum_ext _ (fun Xn => dweight p (fst Xn) (q_x qa) 0 * vget (nd_v (snd Xn)) 0)) by (intros; ring).
    rewrite (grad_value p Hdx axes (q_x qa) (s_nodes s1) GO (Cov qa (or_introl eq_refl)) Nm ltac:(discriminate)) with (f := fun _ nd => vget (nd_v nd) 0) (a := 9/4) (b := 3/2) (m := 0%nat); [reflexivity|cbn; lia|cbn; lia|].
    intros j X nd Hj Hn Hw. destruct (ring_lattice true af axes Ea j X GO Hj) as (a & b & Xa & Xb).
    assert (Hg : exists nd0, nth_error grid j = Some nd0).
    { destruct (nth_error grid j) as [nd0|] eqn:Q; [eauto|]. exfalso. apply nth_error_None in Q. assert (j < length (positions axes))%nat by (apply nth_error_Some; congruence). lia. }
    destruct Hg as (nd0 & Hg). assert (Hc : nth_error (combine (positions axes) grid) j = Some (X, nd0)) by (apply nth_error_combine; auto).
    destruct (F2_at _ _ _ _ _ ML j (X, nd0) nd Hc Hn) as [Mm _ Mv]. cbn [fst snd] in Mm, Mv.
    pose proof (nl_mass _ _ _ _ _ _ _ (NL j X nd0 Hj Hg (seen_range p l Hdx In0 qa X (or_introl eq_refl) Hw))) as Mn. rewrite Mn in Mm. clear Mn.
    rewrite El in Mm, Mv. change (copies p 1 [qa; qb]) with [moved (-1 * 10) qa; moved (-1 * 10) qb; moved (0 * 10) qa; moved (0 * 10) qb; moved (1 * 10) qa; moved (1 * 10) qb] in Mm.
    cbn [combine] in Mv. unfold Rsum in Mm, Mv. cbn [fold_right map fst snd] in Mm, Mv.
    assert (WV : forall d q, weight p X (q_x (moved d q)) = N2 (vget (q_x q) 0 + d - IZR a) * N2 (vget (q_x q) 1 - IZR b)).
    { intros d q. rewrite weight2 by reflexivity. cbn [moved q_x spline dx p ring_p N]. rewrite shift_0, shift_k by (cbn; lia). rewrite Xa, Xb. f_equal; f_equal; field. }
    assert (WV0 : forall q, weight p X (q_x q) = N2 (vget (q_x q) 0 - IZR a) * N2 (vget (q_x q) 1 - IZR b)).
    { intros q. rewrite weight2 by reflexivity. cbn [spline dx p ring_p N]. rewrite Xa, Xb. f_equal; f_equal; field. }
    rewrite !WV in Mm. rewrite WV0 in Hw. change (vget (q_x qa) 0) with (1/2) in *. change (vget (q_x qb) 0) with (19/2) in *. change (vget (q_x qa) 1) with 5 in *. change (vget (q_x qb) 1) with 5 in *.
    set (ny := N2 (5 - IZR b)) in *. change (particle_mass p) with 1 in *. change (Types.Lx p) with 10 in *.
    assert (NN : forall z : R, 0 <= N2 z) by (intros z; exact (N_nonneg Deg2 z)). pose proof (NN (5 - IZR b)) as Hny. fold ny in Hny. pose proof (NN (1/2 - IZR a)) as Hna.
    assert (Pn : 0 < ny) by nra. assert (Pa : 0 < N2 (1/2 - IZR a)) by nra.
    assert (Ra : (a = 0 \/ a = 1)%Z).
    { assert (Q : Rabs (1/2 - IZR a) < 3/2) by (apply Rnot_le_lt; intros Q; apply (proj2 (N2_at _)) in Q; lra). apply Rabs_def2 in Q. destruct Q as (Q1 & Q2).
      assert (-1 < a)%Z by (apply lt_IZR; lra). assert (a < 2)%Z by (apply lt_IZR; lra). lia. }
    assert (Z0 : forall y, 3/2 <= y \/ y <= -3/2 -> N2 y = 0) by (intros y Hy; apply N2_at; unfold Rabs; destruct (Rcase_abs y); lra).
    assert (Z1 : forall y, y = 1/2 \/ y = -1/2 -> N2 y = 1/2) by (intros y Hy; apply N2_at; unfold Rabs; destruct (Rcase_abs y); lra).
    assert (Cr : forall v B x, carried p v B x X 0 = vget v 0) by (intros; unfold carried; cbn [flip_ratio p ring_p]; destruct (Rlt_dec 1 0); [lra|ring]).
    rewrite Xa. destruct Ra as [-> | ->].
    - rewrite (Z0 (1/2 + -1*10 - 0)), (Z1 (19/2 + -1*10 - 0)), (Z1 (1/2 + 0*10 - 0)), (Z0 (19/2 + 0*10 - 0)), (Z0 (1/2 + 1*10-0)), (Z0 (19/2+1*10-0)) in Mm by lra.
      specialize (Mv ltac:(lra) 0%nat ltac:(cbn; lia)). rewrite !WV0, !Cr, Ka, Kb, Mm in Mv. change (vget (q_x qa) 0) with (1/2) in *. change (vget (q_x qb) 0) with (19/2) in *. change (vget (q_x qa) 1) with 5 in *. change (vget (q_x qb) 1) with 5 in *. fold ny in Mv. rewrite (Z1 (1/2 - 0)), (Z0 (19/2 - 0)) in Mv by lra. apply Rmult_eq_reg_l with ny; lra.
    - rewrite (Z0 (1/2 + -1*10 - 1)), (Z0 (19/2 + -1*10 - 1)), (Z1 (1/2 + 0*10 - 1)), (Z0 (19/2 + 0*10 - 1)), (Z0 (1/2 + 1*10-1)), (Z0 (19/2+1*10-1)) in Mm by lra.
      specialize (Mv ltac:(lra) 0%nat ltac:(cbn; lia)). rewrite !WV0, !Cr, Ka, Kb, Mm in Mv. change (vget (q_x qa) 0) with (1/2) in *. change (vget (q_x qb) 0) with (19/2) in *. change (vget (q_x qa) 1) with 5 in *. change (vget (q_x qb) 1) with 5 in *. fold ny in Mv. rewrite (Z1 (1/2 - 1)), (Z0 (19/2 - 1)) in Mv by lra. apply Rmult_eq_reg_l with ny; lra. }
  cbv zeta in Ho. unfold plasticity in Ho. destruct (svd _) as ((U, sg), Vm). apply bind_Ok in Ho. destruct Ho as (r & Hr & Ho). unfold return_map in Hr. change (plastic_model p) with NoPlasticity in Hr.
  cbv iota in Hr. apply Ok_inj in Hr. subst r. cbn [r_upd] in Ho. apply Ok_inj in Ho. rewrite <- Ho in Fo. cbn [o_F] in Fo.
  exists af, axes, s1, (q_F qa1). cbv zeta. fold p s0 l. rewrite E1. do 4 (split; [assumption|]). split; [cbn; lra|]. split; [exact Hun|]. split; [exact H|]. split; [exact Dt|]. split; [reflexivity|].
  rewrite Eu. cbn [moved q_F]. rewrite Fo. change (q_F qa) with (mident : TM). unfold increment. rewrite mmul_id_r, mget_add, mget_scale, mget_ident, L00 by (cbn; lia). cbn. lra.
Qed.
Print Assumptions C81_musl_refuted.
