(** * PropRest: C64, an unloaded body at rest stays as it is. *)
From Coq Require Import Reals ZArith Lra Lia List Bool.
From Verif Require Import Num NumR Tools Lin Types Remesh Objects Transfer Rma Plastic Pbc Step Spec SpecStep SpecTime SpecPlastic SpecRest LinProofs ResProofs
  GridProofs StencilProofs PloopProofs StepProofs RemeshProofs PlasticModels GuardProofs PropStep PropTime PropDefined PropMaterial PropPlastic RestProofs ExStep ExMech ExPlastic SvdExist PropGrid PropPbc PropGridHist.
Import ListNotations.
Local Open Scope R_scope.

(** A state at the positions [xs], with all of [resting], [calm] and no velocity on the grid. *)
Definition rest_state {G : Geo R} (p : Par R) (n : nat) (xs : list TV) (es : list (R * R)) (s : St R) : Prop :=
  well_formed s n /\ resting p xs es (s_p s) /\ calm s /\ s_exit s = false /\ Forall (fun nd => nd_v nd = vzero) (s_nodes s).

(** Whatever the material, schedule, blending and number of steps, a simulation that starts from
    rest without loads writes, in every frame, the positions, velocities, deformations and stresses
    it started from, and does not give up. *)
Theorem C64_rest_is_kept : forall (G : Geo R), two_or_three G -> forall svd uabs fuel af p init sch s0 n xs es st s1 ev,
  admissible_material svd p -> (forall k, valid_sched (sch k)) -> stay p xs -> rest_state p n xs es s0 ->
  simulate svd uabs fuel af p init sch s0 = Ok (st, s1, ev) ->
  st <> Aborted /\ resting p xs es (s_p s1) /\ (forall s, In (EvParticles s) ev -> resting p xs es (s_p s)) /\
  (forall s, In (EvGrid s) ev -> Forall (fun nd => nd_v nd = vzero) (s_nodes s)).
Proof.
  intros G HG svd uabs fuel af p init sch s0 n xs es st s1 ev (Sv & El & Sa & Hm) V St U H. pose proof (geolaws G HG) as GL.
  destruct (sim_cases svd uabs _ _ _ _ _ _ _ _ _ H) as [(C & -> & ->)|(ev1 & L & ->)].
  { split; [intuition congruence|]. split; [apply U|]. split; intros s []. }
  pose proof (undisturbed_start p n xs es s0 U) as U1.
  destruct (loop_inv svd uabs (undisturbed p n xs es) af p sch (fun k s s' Hs E => undisturbed_step HG svd uabs p Sv El Sa Hm n xs es St af (sch k) s s' (V k) Hs E)
    (fun s Hs => undisturbed_tick p n xs es s Hs) _ _ _ _ _ _ U1 L) as (U2 & Fo). rewrite Forall_forall in Fo.
  split. { destruct (loop_exit svd uabs _ _ _ _ _ _ _ _ _ (proj1 (proj2 (proj2 (proj2 U1)))) L) as (_ & [(-> & _)|(_ & X)]); [discriminate|]. rewrite (proj1 (proj2 (proj2 (proj2 U2)))) in X. discriminate. }
  split; [apply U2|].
  assert (K : forall e, In e ((if save_sim p then [EvInfo; EvParticles (sim_start p s0)] else []) ++ ev1 ++
     match st with Finished => if save_sim p then [EvTiming (s_step s1)] else [] | _ => [] end) -> ev_ok (undisturbed p n xs es) e).
  { intros e He. apply in_app_or in He. destruct He as [He|He].
    - destruct (save_sim p); [|destruct He]. destruct He as [<-|[<-|[]]]; [exact I|exact U1].
    - apply in_app_or in He. destruct He as [He|He]; [now apply Fo|]. destruct st; try destruct He. destruct (save_sim p); [|destruct He]. destruct He as [<-|[]]. exact I. }
  split; intros s Hs; specialize (K _ Hs); apply K.
Qed.
Print Assumptions C64_rest_is_kept.

(** And such a simulation always finishes, however many steps it takes; with periodic boundaries
    too, if the particles start in the box and the material friction option is off. *)
Theorem C64_rest_completes : forall (G : Geo R), two_or_three G -> forall svd uabs fuel p sch s0 n xs es,
  admissible_material svd p -> (forall k, valid_sched (sch k)) -> stay p xs -> rest_state p n xs es s0 -> (0 < n)%nat -> s_step s0 = 0%Z ->
  0 < dx p -> clock_ok p -> IZR (end_frame p) / fps p <= INR fuel * min_dt p ->
  obstacles_defined p -> objects_return p -> ~ reads_garbage p ->
  (use_pbc p = false -> (forall x k, In x xs -> (k < dim)%nat -> Rabs (vget x k) <= 100 * dx p) /\ 10000000000 <= vget (grid_ref p) 0) ->
  (use_pbc p = true -> use_mibf p = false /\ 0 <= Lx p <= 180 * dx p /\ 0 <= Ly p <= 180 * dx p /\ 0 <= Lz p <= 180 * dx p /\
     forall x, In x xs -> 0 <= vget x 1 < Ly p + 4 * dx p /\ (dim = 3%nat -> - 4 * dx p <= vget x 2 < Lz p + 4 * dx p)) ->
  exists af0, forall af, (af0 <= af)%nat -> exists s1 ev, simulate svd uabs fuel af p true sch s0 = Ok (Finished, s1, ev).
Proof.
  intros G HG svd uabs fuel p sch s0 n xs es (Sv & El & Sa & Hm) V St U Hn S0 Hdx Ck Hf Ob Or Ng Hfree Hper. pose proof (geolaws G HG) as GL.
  pose proof (C46_material_defined G svd uabs p Ng) as Ma. pose proof U as (W & Re & _ & Ex & _).
  destruct (C27_simulations_terminate G HG svd uabs p true sch s0 fuel Hdx Or Ck Hf) as (af1 & T1).
  assert (Pr : exists af2, forall af, (af2 <= af)%nat -> exists good : Types.St R -> Prop, good (sim_start p s0) /\
    forall sc s, valid_sched sc -> undisturbed p n xs es s -> good s -> exists s1, advanceStep svd uabs af p sc s = Ok s1 /\ good (tick p s1)).
  { destruct (use_pbc p) eqn:Pb.
    - destruct (Hper eq_refl) as (Mi & Lx0 & Ly0 & Lz0 & Hx). destruct (fixed_terminates p Hdx ltac:(lra) ltac:(lra) ltac:(lra)) as (af2 & T2). exists af2. intros af Ha. destruct (T2 af Ha) as (axes & Ea).
      exists (fun s => s_step s = 0%Z \/ s_axes s = axes). split; [left; exact S0|]. intros sc s Vs Us Hs. pose proof Us as (Ws & Rs & _).
      destruct (C53_periodic_step_is_safe G HG svd uabs af p sc s n axes Hdx Pb Mi Vs Ws Hn Ob Ma) as (s1 & E1 & A1 & _); auto; try lra.
      { intros x Hin. rewrite (re_x _ _ _ _ Rs) in Hin. split; [apply St; auto|]. apply Hx; auto. }
      exists s1. split; [exact E1|]. right. unfold tick. cbv zeta. destruct (_ <? _)%num; exact A1.
    - destruct (Hfree eq_refl) as (Bx & Nr).
      destruct (first_step svd uabs p (sch 0%nat) s0 n Hdx Pb (V 0%nat) W Hn S0 Ob Ma) as (af2 & T2).
      { intros x k Hx. rewrite (re_x _ _ _ _ Re) in Hx. now apply Bx. } { intros k Hk X. lra. }
      exists af2. intros af Ha. destruct (T2 af ltac:(lia)) as (s1 & E1 & GO & IG).
      destruct (first_anchored svd uabs af p (sch 0%nat) s0 s1 Hdx Pb S0 E1) as (am & Ei & Ea & Em & _). rewrite (re_x _ _ _ _ Re) in *. rewrite Ea in *.
      exists (laid am). split; [intros X; exfalso; apply X; exact S0|]. intros sc s Vs Us Hs.
      apply (laid_progress HG svd uabs p Hdx Sv El Sa Hm Ob Ma n xs es Hn Pb af am Ei ltac:(lra) GO IG sc s Vs Us Hs). }
  destruct Pr as (af2 & Pr).
  exists (Nat.max af1 af2). intros af Ha. specialize (T1 af ltac:(lia)). destruct (Pr af ltac:(lia)) as (good & G0 & Gs).
  unfold simulate in *. cbn [negb] in *.
  assert (Mo : model_ok p = true).
  { unfold model_ok. destruct (wf_pack s0 n W) as (l & L & E0 & _). destruct l as [|q l]; [cbn in L; lia|]. pose proof (re_h _ _ _ _ Re) as Hh. rewrite E0 in Hh. cbn [pack p_hist map] in Hh. inversion Hh as [|h hs (_ & D) _]. subst.
    destruct D as [->|(-> & _)]; [now destruct (elastic_model p)|reflexivity]. }
  rewrite Mo, Ex in *. cbn [negb] in *. cbv zeta in *.
  destruct (loop_progress HG svd uabs p Sv El Sa Hm n xs es Hn St af good Gs sch V fuel 0%nat (sim_start p s0) (undisturbed_start p n xs es s0 U) G0) as [E|(s2 & ev & E)].
  - rewrite E in T1. cbn [bind] in T1. congruence.
  - rewrite E. cbn [bind]. eauto.
Qed.
Print Assumptions C64_rest_completes.

(** Two particles of cohesionless mu(I) sand next to a plate, MUSL, five frames. *)
Definition rest_par (pm : PlasticModel) : @Par R (Geo2 R) :=
  {| spline := Deg2; end_frame := 5; use_pbc := false; change_pos := false; gravity_special := true;
     save_sim := true; save_grid := true; use_mibf := true; use_musl := true;
     grid_ref := vtab (fun _ => 20000000000); gravity0 := vzero;
     min_dt := 1/100000000000000; fps := 1000; cfl := 1/2; cfl_elastic := 1/2; flip_ratio := -1/2;
     rho := 1000; gravity_time := 2; Lx := 1; Ly := 1; Lz := 1;
     particle_mass := 1; particle_volume := 1; dx := 1;
     elastic_model := Hencky; plastic_model := pm; hardening_law := ExpoExpl;
     use_pradhana := true; young := 1000; nu := 3/10; stress_tolerance := 1/100000; xi := 0;
     q_max := 100; q_min := 100; p_min := -1000;
     Mfric := 1; q_cohesion := 0; visc_exponent := 1; visc_time := 0; use_dl := false;
     beta := 0; p0 := 1000; rho_s := 2500; grain_diameter := 1/1000; I_ref := 279/1000;
     mu_1 := 38/100; mu_2 := 64/100; q_prefac := 1; objects := [] |}.
Definition rest_start (pm : PlasticModel) : @St R (Geo2 R) := initial_state (rest_par pm) at_rest [mkPlate (G := Geo2 R) (-1) pleft NoSlip 0 (-10) 10 vzero vzero 1 0].
Definition rest_xs : list (@TV R (Geo2 R)) := [e2 (1/2) (1/4); e2 (-1/2) (3/4)].
Lemma rest_ex_ok : forall pm, pm = DPMui \/ pm = DP \/ pm = NoPlasticity -> rest_state (rest_par pm) 2 rest_xs [(0, 0); (0, 0)] (rest_start pm) /\ stay (rest_par pm) rest_xs /\
  admissible_material svdx (rest_par pm) /\ clock_ok (rest_par pm) /\ ~ reads_garbage (rest_par pm) /\
  (forall x k, In x rest_xs -> (k < @dim R (Geo2 R))%nat -> Rabs (vget x k) <= 100 * dx (rest_par pm)) /\ 10000000000 <= vget (grid_ref (rest_par pm)) 0.
Proof.
  intros pm Hp. split.
  { split; [apply ex_wf|]. split; [|split; [|split; [reflexivity|constructor]]].
    - assert (Un : forall h : Hist R, h_prad h = 0 -> unloaded (rest_par pm) h).
      { intros h Hh. split; [exact Hh|]. destruct Hp as [->|[->| ->]]; [right|right|left; reflexivity]; split; try reflexivity.
        - left. unfold elastic_domain, vol_shift. cbn. rewrite Hh. unfold Rdiv. rewrite Ropp_0. split; lra.
        - right. split; [left; reflexivity|reflexivity]. }
      constructor; try reflexivity; try (intros _); cbn [rest_start initial_state s_p at_rest two_particles p_v p_B p_F p_tau p_hist]; repeat (apply Forall_cons; [first [reflexivity|apply Un; cbn; lra]|]); try apply Forall_nil.
      cbn. repeat (f_equal; try lra).
    - unfold calm. cbn. repeat constructor. }
  split; [split; [reflexivity|discriminate]|]. split.
  { split; [apply svdx_ok|]. split; [unfold elastic; cbn; lra|]. split; [constructor; cbn; lra|cbn; lra]. }
  split; [unfold clock_ok; cbn; lra|]. split. { intros Hg. unfold reads_garbage in Hg. cbn in Hg. destruct Hp as [->|[->| ->]]; intuition discriminate. }
  split; [|cbn; lra]. intros x k [<-|[<-|[]]] Hk; destruct k as [|[|k]]; cbn in Hk |- *; try lia; unfold Rabs; destruct (Rcase_abs _); lra.
Qed.
Example C64_ex : forall uabs pm, pm = DPMui \/ pm = DP \/ pm = NoPlasticity -> exists fuel af s1 ev,
  simulate svdx uabs fuel af (rest_par pm) true (fun _ => rev_sched) (rest_start pm) = Ok (Finished, s1, ev) /\ resting (rest_par pm) rest_xs [(0, 0); (0, 0)] (s_p s1).
Proof.
  intros uabs pm Hp. destruct (rest_ex_ok pm Hp) as (U & S & A & C & Ng & B & Nr).
  assert (exists fuel, IZR 5 / 1000 <= INR fuel * (1/100000000000000)) as (fuel & Hf) by (exists (Z.to_nat 1000000000000); rewrite INR_IZR_INZ, Z2Nat.id by lia; lra).
  destruct (C64_rest_completes _ (or_introl eq_refl) svdx uabs fuel (rest_par pm) (fun _ => rev_sched) (rest_start pm) 2 rest_xs _ A (fun _ => rev_valid) S U ltac:(lia) eq_refl) as (af & H); auto.
  { cbn; lra. } { now apply no_obstacles. } { intros o []. } { intros X. discriminate X. }
  destruct (H af (le_n _)) as (s1 & ev & E). exists fuel, af, s1, ev. split; [exact E|].
  destruct (C64_rest_is_kept _ (or_introl eq_refl) svdx uabs fuel af (rest_par pm) true (fun _ => rev_sched) (rest_start pm) 2 rest_xs _ _ _ _ A (fun _ => rev_valid) S U E) as (_ & K & _). exact K.
Qed.

(** Simulations of any length meet the hypotheses of the grid theorems of PropGridHist. *)
Example C04_C05_C06_history_ex : forall uabs m, let p := rest_par DPMui in let s0 := rest_start DPMui in exists af s1 l s2 s3,
  0 < dx p /\ use_pbc p = false /\ s_step s0 = 0%Z /\ advanceStep svdx uabs af p rev_sched s0 = Ok s1 /\ (prodlen (s_axes s1) <= 4294967295)%Z /\
  run svdx uabs af p (tick p s1) l s2 /\ length l = m /\ advanceStep svdx uabs af p rev_sched s2 = Ok s3 /\ (prodlen (s_axes s3) <= 4294967295)%Z /\
  (forall k lo hi x (n : Z), (k < 2)%nat -> extent p (p_x (s_p s0)) k lo hi -> In x (p_x (s_p s2)) -> (1 <= n)%Z ->
     ~ (IZR n <= (lo - vget x k) / dx p < IZR n + 1/100000000 * dx p) /\
     ~ (IZR n <= (vget x k - hi) / dx p < IZR n + 1/100000000 * dx p)) /\
  s_axes s3 = s_axes s1 /\ length (s_axes s3) = 2%nat.
Proof.
  intros uabs m p s0. destruct (rest_ex_ok DPMui (or_introl eq_refl)) as (U & S & (Sv & El & Sa & Hm) & C & Ng & B & Nr).
  pose proof (geolaws (Geo2 R) (or_introl eq_refl)) as GL. assert (HG : two_or_three (Geo2 R)) by (left; reflexivity).
  assert (Hdx : 0 < dx p) by (cbn; lra). pose proof (C46_material_defined (Geo2 R) svdx uabs p Ng) as Ma. assert (Ob : obstacles_defined p) by now apply no_obstacles.
  assert (Hn : (0 < 2)%nat) by lia.
  destruct (first_step svdx uabs p rev_sched s0 2 Hdx eq_refl rev_valid (proj1 U) Hn eq_refl Ob Ma) as (af & T); auto.
  { intros k Hk X. cbn in X. lra. }
  destruct (T af (le_n _)) as (s1 & E1 & GO & IG). destruct (first_anchored svdx uabs af p rev_sched s0 s1 Hdx eq_refl eq_refl E1) as (am & Ei & Ea & Em & An).
  change (p_x (s_p s0)) with rest_xs in *. rewrite Ea in GO, IG. assert (Nr' : ~ vget (grid_ref p) 0 < 10000000000) by (subst p; lra).
  pose proof (undisturbed_step HG svdx uabs p Sv El Sa Hm 2 rest_xs _ S af rev_sched s0 s1 rev_valid U E1) as U1.
  assert (La : laid am (tick p s1)) by (intros _; unfold tick; cbv zeta; destruct (_ <? _)%num; exact Em).
  destruct (run_progress HG svdx uabs p Sv El Sa Hm 2 rest_xs _ Hn S af (laid am) (laid_progress HG svdx uabs p Hdx Sv El Sa Hm Ob Ma 2 rest_xs _ Hn eq_refl af am Ei Nr' GO IG) rev_sched rev_valid m (tick p s1) (undisturbed_tick p 2 rest_xs _ s1 U1) La) as (l & s2 & L & Rn & U2 & La2).
  destruct (rest_progress HG svdx uabs p Hdx Sv El Sa Hm Ob Ma 2 rest_xs _ Hn eq_refl af am Ei Nr' GO IG rev_sched s2 rev_valid U2 La2) as (s3 & E3 & Em3 & Ea3).
  exists af, s1, l, s2, s3. split; [exact Hdx|]. split; [reflexivity|]. split; [reflexivity|]. split; [exact E1|].
  assert (Pl : (prodlen (map fst am) <= 4294967295)%Z) by (destruct GO; auto).
  split; [now rewrite Ea|]. split; [exact Rn|]. split; [exact L|]. split; [exact E3|]. split; [now rewrite Ea3|]. split; [|split; [congruence|]].
  - intros k lo hi x n Hk (_ & _ & Ex) Hx Hn'. rewrite (re_x _ _ _ _ (proj1 (proj2 U2))) in Hx.
    assert (Hb : lo <= vget x k <= hi) by (apply Ex; destruct (Rlt_dec _ _); [right|]; exact Hx).
    apply IZR_le in Hn'. change (dx p) with 1. unfold Rdiv. rewrite Rinv_1, !Rmult_1_r. split; lra.
  - rewrite Ea3, <- Ea. apply An.
Qed.

(** A periodic box: simulations of any length keep the grid of the first step (C33). *)
Definition rest_box : @Particles R (Geo2 R) :=
  mkParticles (G := Geo2 R) [e2 (1/2) 5; e2 (19/2) 5] [vzero; vzero] [vzero; vzero] [vzero; vzero]
    [mkHist 0 0 0 0 0 0; mkHist 0 0 0 0 0 0] [mident; mident] [mzero; mzero] [mzero; mzero].
Definition box_par : @Par R (Geo2 R) :=
  {| spline := Deg2; end_frame := 1; use_pbc := true; change_pos := false; gravity_special := false;
     save_sim := true; save_grid := false; use_mibf := false; use_musl := true;
     grid_ref := vtab (fun _ => 20000000000); gravity0 := vzero;
     min_dt := 1/100000000000000; fps := 1000; cfl := 1/2; cfl_elastic := 1/2; flip_ratio := -1;
     rho := 1000; gravity_time := 2; Lx := 10; Ly := 10; Lz := 10;
     particle_mass := 1; particle_volume := 1; dx := 1;
     elastic_model := Hencky; plastic_model := NoPlasticity; hardening_law := ExpoImpl;
     use_pradhana := true; young := 1000; nu := 3/10; stress_tolerance := 1/100000; xi := 0;
     q_max := 100; q_min := 100; p_min := -100000000000000000000;
     Mfric := 1; q_cohesion := 0; visc_exponent := 1; visc_time := 0; use_dl := false;
     beta := 0; p0 := 1000; rho_s := 2500; grain_diameter := 1/1000; I_ref := 279/1000;
     mu_1 := 38/100; mu_2 := 64/100; q_prefac := 1; objects := [] |}.
Definition box_xs : list (@TV R (Geo2 R)) := [e2 (1/2) 5; e2 (19/2) 5].
Lemma box_ok : rest_state box_par 2 box_xs [(0, 0); (0, 0)] (ex_state box_par rest_box) /\ stay box_par box_xs /\ admissible_material svdx box_par /\ clock_ok box_par /\ ~ reads_garbage box_par.
Proof.
  split.
  { split; [split; [constructor; reflexivity|split; [reflexivity|cbn; lia]]|]. split; [|split; [|split; [reflexivity|constructor]]].
    - constructor; try reflexivity; try (intros _); cbn [ex_state initial_state s_p rest_box p_v p_B p_F p_tau p_hist]; repeat (apply Forall_cons; [first [reflexivity|split; [reflexivity|left; reflexivity]]|]); try apply Forall_nil.
    - unfold calm. cbn. repeat constructor. }
  split; [split; [reflexivity|]|].
  { intros _ x [<-|[<-|[]]]; cbn; lra. }
  split. { split; [apply svdx_ok|]. split; [unfold elastic; cbn; lra|]. split; [constructor; cbn; lra|cbn; lra]. }
  split; [unfold clock_ok; cbn; lra|]. intros Hg. unfold reads_garbage in Hg. cbn in Hg. intuition discriminate.
Qed.
Example C64_periodic_ex : forall uabs, exists fuel af s1 ev,
  simulate svdx uabs fuel af box_par true (fun _ => rev_sched) (ex_state box_par rest_box) = Ok (Finished, s1, ev) /\ resting box_par box_xs [(0, 0); (0, 0)] (s_p s1).
Proof.
  intros uabs. destruct box_ok as (U & S & A & C & Ng).
  assert (exists fuel, IZR 1 / 1000 <= INR fuel * (1/100000000000000)) as (fuel & Hf) by (exists (Z.to_nat 1000000000000); rewrite INR_IZR_INZ, Z2Nat.id by lia; lra).
  destruct (C64_rest_completes _ (or_introl eq_refl) svdx uabs fuel box_par (fun _ => rev_sched) (ex_state box_par rest_box) 2 box_xs _ A (fun _ => rev_valid) S U ltac:(lia) eq_refl) as (af & H); auto.
  { cbn; lra. } { now apply no_obstacles. } { intros o []. } { intros X. discriminate X. }
  { intros _. split; [reflexivity|]. cbn [box_par Lx Ly Lz dx]. repeat (split; [lra|]). intros x [<-|[<-|[]]]; cbn; split; try lra; intros X; discriminate X. }
  destruct (H af (le_n _)) as (s1 & ev & E). exists fuel, af, s1, ev. split; [exact E|].
  destruct (C64_rest_is_kept _ (or_introl eq_refl) svdx uabs fuel af box_par true (fun _ => rev_sched) (ex_state box_par rest_box) 2 box_xs _ _ _ _ A (fun _ => rev_valid) S U E) as (_ & K & _). exact K.
Qed.
Example C33_history_ex : forall uabs m, exists af s1 l s2,
  0 < dx box_par /\ use_pbc box_par = true /\ s_step (ex_state box_par rest_box) = 0%Z /\ advanceStep svdx uabs af box_par rev_sched (ex_state box_par rest_box) = Ok s1 /\
  run svdx uabs af box_par (tick box_par s1) l s2 /\ length l = m /\ (prodlen (s_axes s1) <= 4294967295)%Z.
Proof.
  intros uabs m. destruct box_ok as (U & S & (Sv & El & Sa & Hm) & C & Ng). set (p := box_par) in *. set (s0 := ex_state p rest_box) in *.
  assert (HG : two_or_three (Geo2 R)) by (left; reflexivity). assert (Hdx : 0 < dx p) by (cbn; lra).
  pose proof (geolaws (Geo2 R) HG) as GL.
  destruct (fixed_terminates (G := Geo2 R) p Hdx ltac:(cbn; lra) ltac:(cbn; lra) ltac:(cbn; lra)) as (af & T). destruct (T af (le_n _)) as (axes & Ea).
  assert (Pg : forall sc s, valid_sched sc -> undisturbed p 2 box_xs [(0, 0); (0, 0)] s -> (s_step s = 0%Z \/ s_axes s = axes) ->
    exists s1, advanceStep svdx uabs af p sc s = Ok s1 /\ s_axes s1 = axes /\ GridOk p axes).
  { intros sc s Vs Us Hs. pose proof Us as (Ws & Rs & _).
    apply (C53_periodic_step_is_safe _ HG svdx uabs af p sc s 2 axes Hdx eq_refl eq_refl Vs Ws ltac:(lia) (no_obstacles p eq_refl) (no_plasticity svdx uabs p eq_refl)); auto; try (cbn; lra).
    intros x Hin. rewrite (re_x _ _ _ _ Rs) in Hin. destruct Hin as [<-|[<-|[]]]; cbn; repeat split; try lra; intros X; discriminate X. }
  destruct (Pg rev_sched s0 rev_valid U (or_introl eq_refl)) as (s1 & E1 & A1 & GO).
  pose proof (undisturbed_step HG svdx uabs p Sv El Sa Hm 2 box_xs _ S af rev_sched s0 s1 rev_valid U E1) as U1.
  assert (Tk : forall s, s_axes s = axes -> s_axes (tick p s) = axes) by (intros s Hs; unfold tick; cbv zeta; destruct (_ <? _)%num; exact Hs).
  destruct (run_progress HG svdx uabs p Sv El Sa Hm 2 box_xs _ ltac:(lia) S af (fun s => s_step s = 0%Z \/ s_axes s = axes)
    (fun sc s V Us Hs => match Pg sc s V Us Hs with ex_intro s1 (Logic.conj E (Logic.conj A _)) => ex_intro _ s1 (Logic.conj E (or_intror (Tk s1 A))) end)
    rev_sched rev_valid m (tick p s1) (undisturbed_tick p 2 box_xs _ s1 U1) (or_intror (Tk s1 A1))) as (l & s2 & L & Rn & _).
  exists af, s1, l, s2. rewrite A1. repeat (split; [first [exact Hdx|reflexivity|exact E1|exact Rn|exact L]|]). destruct GO; auto.
Qed.
