(** * PropBarrier: C74, how far particles sink into resting flat obstacles. *)
From Coq Require Import Reals ZArith Lra Lia List Bool Permutation.
From Verif Require Import Num NumR Tools Lin Types Remesh Objects Transfer Rma Plastic Pbc Step Spec SpecStep SpecMech SpecObj SpecMaterial SpecMpm SpecBarrier
  LinProofs ResProofs StepProofs StepField MpmProofs BalanceProofs PlateProofs KernelProofs TimeProofs BarrierProofs PropTime PropStep ExStep ExMech PropBalance.
Import ListNotations.
Local Open Scope R_scope.

(** ** C74
    One step: a particle at least one kernel radius r in front of the surface does not reach it; at
    depth d between -r and r it ends at most half way between d and r; deeper than that it does not
    sink further. *)
Theorem C74_step : forall (G : Geo R), two_or_three G -> forall svd uabs af p sc s0 s1 n b,
  0 < dx p -> 0 < particle_mass p -> 0 <= min_dt p -> change_pos p = false -> valid_sched sc -> well_formed s0 n ->
  advanceStep svd uabs af p sc s0 = Ok s1 -> GridOk p (s_axes s1) ->
  (bar_axis b < dim)%nat -> (use_pbc p = true -> bar_axis b <> 0%nat) ->
  still_scene p (bar_axis b) (s_plates s0) -> present p (s_plates s0) b -> wide p s0 s1 b ->
  forall i x x1, nth_error (p_x (s_p s0)) i = Some x -> nth_error (p_x (s_p s1)) i = Some x1 ->
    let r := kernel_radius p in
    (depth b x <= - r -> depth b x1 <= 0) /\ (- r <= depth b x <= r -> depth b x1 <= (depth b x + r) / 2) /\ (r <= depth b x -> depth b x1 <= depth b x).
Proof.
  intros G HG svd uabs af p sc s0 s1 n b Hdx Hm Hmin Hc V W H GO Hk Hb Sc Pr Wd. pose proof (geolaws G HG) as GL.
  destruct (C25_time_step_limits G HG svd uabs af p sc s0 s1 Hmin H) as (Hdt & _). apply (barrier_step svd uabs af p sc s0 s1 n b); auto. lra.
Qed.
Print Assumptions C74_step.

Lemma resting_move : forall (G : Geo R), GeoLaws G -> forall dt fdt t (q : Plate R), pl_v q = vzero -> pl_v0 q = vzero -> plate_move dt fdt t q = q.
Proof.
  intros G GL dt fdt t q E E0. unfold plate_move. cbv zeta. rewrite E0.
  match goal with |- context [vscale vzero ?g] => set (f := g) end. assert (Z : vscale (@vzero R _ G) f = vzero) by (apply vext; intros k Hk; rewrite vget_scale, vzero_get by auto; numR; ring). rewrite Z.
  assert (Z0 : forall c, (c < dim)%nat -> vget (@vzero R _ G) c = 0) by (intros; now apply vzero_get). pose proof (@gl_dim G GL) as D.
  destruct q as [pos ty bc fr lo up v v0 vm ld]. cbn in *. subst. destruct ty; numR; try (rewrite !Z0 by lia; rewrite ?Rmult_0_r, ?Rplus_0_r; reflexivity);
  (destruct D as [D|D]; rewrite D; [reflexivity|]; rewrite Z0 by lia; rewrite Rmult_0_r, Rplus_0_r; reflexivity).
Qed.
(** Any number of steps: a particle less than one kernel radius deep stays less than one kernel radius
    deep; and in any case none gets deeper than that or than it was at the start. *)
Theorem C74_run : forall (G : Geo R), two_or_three G -> forall svd uabs af p b m s0 s2 n,
  0 < dx p -> 0 < particle_mass p -> 0 <= min_dt p -> change_pos p = false -> well_formed s0 n ->
  (bar_axis b < dim)%nat -> (use_pbc p = true -> bar_axis b <> 0%nat) ->
  still_scene p (bar_axis b) (s_plates s0) -> present p (s_plates s0) b -> barrier_run svd uabs af p b s0 m s2 ->
  forall i x x2, nth_error (p_x (s_p s0)) i = Some x -> nth_error (p_x (s_p s2)) i = Some x2 ->
    let r := kernel_radius p in
    (depth b x < r -> depth b x2 < r) /\ depth b x2 <= Rmax r (depth b x).
Proof.
  intros G HG svd uabs af p b m s0 s2 n Hdx Hm Hmin Hc W Hk Hb Sc Pr Rn. pose proof (geolaws G HG) as GL.
  assert (R0 : 0 < kernel_radius p) by (unfold kernel_radius; apply Rmult_lt_0_compat; auto; destruct (spline p); cbn [degree INR]; lra).
  induction Rn as [s|sc s0 s1 m s2 V E GO Wd Rn IH]; intros i x x2 Hx Hx2; cbv zeta.
  - replace x2 with x by congruence. split; auto. apply Rmax_r.
  - pose proof (C51_step_keeps_arrays G svd uabs af p sc s0 s1 n V W E) as W1.
    destruct (step_clock svd uabs af p sc s0 s1 E) as (_ & _ & Pl & _).
    assert (Pl' : s_plates s1 = s_plates s0).
    { rewrite Pl. rewrite (map_ext_in _ (fun q => q)); [apply map_id|]. intros q Hq. destruct (proj2 Sc q Hq) as (A & B & _). now apply resting_move. }
    assert (Tp : s_p (tick p s1) = s_p s1 /\ s_plates (tick p s1) = s_plates s1) by (unfold tick; cbv zeta; destruct (nltb _ _); auto). destruct Tp as (T1 & T2).
    destruct (nth_error (p_x (s_p s1)) i) as [x1|] eqn:Ex1.
    2: { exfalso. apply nth_error_None in Ex1. destruct W as (C0 & _). destruct W1 as (C1 & _). rewrite (co_x _ _ C1) in Ex1.
         assert (i < length (p_x (s_p s0)))%nat by (apply nth_error_Some; congruence). rewrite (co_x _ _ C0) in H. lia. }
    pose proof (C74_step G HG svd uabs af p sc s0 s1 n b Hdx Hm Hmin Hc V W E GO Hk Hb Sc Pr Wd i x x1 Hx Ex1) as (S1 & S2 & S3).
    destruct (IH (wf_tick G p s1 n W1) ltac:(rewrite T2, Pl'; exact Sc) ltac:(rewrite T2, Pl'; exact Pr) i x1 x2 ltac:(rewrite T1; exact Ex1) Hx2) as (I1 & I2).
    set (r := kernel_radius p) in *. assert (B : (depth b x < r -> depth b x1 < r) /\ depth b x1 <= Rmax r (depth b x)).
    { destruct (Rle_dec (depth b x) (- r)) as [A1|A1]; [specialize (S1 A1); split; [lra|]; unfold Rmax; destruct (Rle_dec _ _); lra|].
      destruct (Rle_dec (depth b x) r) as [A2|A2]; [specialize (S2 ltac:(lra)); split; [lra|]; unfold Rmax; destruct (Rle_dec _ _); lra|].
      specialize (S3 ltac:(lra)). split; [lra|]. unfold Rmax. destruct (Rle_dec _ _); lra. }
    split; [intros; apply I1; now apply B|]. eapply Rle_trans; [exact I2|]. apply Rmax_lub; [apply Rmax_l|apply B].
Qed.
Print Assumptions C74_run.

(** Two particles fly at speed 3 towards a wall at x = -1 (the wall of the example of C67), the nearer one at a distance of 1/2. *)
Example C74_ex : forall svd uabs musl, exists af s1,
  let p := ex_p 0 musl 1000 vzero false in let s0 := initial_state p (two_particles (e2 (-3) 0) (e2 (-3) 0) mzero mzero mzero mzero) [still_wall] in let b := APlate still_wall in
  0 < dx p /\ 0 < particle_mass p /\ 0 <= min_dt p /\ change_pos p = false /\ valid_sched rev_sched /\ well_formed s0 2 /\
  advanceStep svd uabs af p rev_sched s0 = Ok s1 /\ GridOk p (s_axes s1) /\ (bar_axis b < 2)%nat /\ use_pbc p = false /\
  still_scene p (bar_axis b) (s_plates s0) /\ present p (s_plates s0) b /\ wide p s0 s1 b /\ barrier_run svd uabs af p b s0 1 (tick p s1) /\
  kernel_radius p = 3/2 /\ In (e2 (-1/2) (3/4)) (p_x (s_p s0)) /\ depth b (e2 (-1/2) (3/4)) = -1/2.
Proof.
  intros svd uabs musl. destruct (ex_mech_with svd uabs rev_sched 0 musl vzero (e2 (-3) 0) (e2 (-3) 0) mzero mzero mzero mzero [still_wall] rev_valid) as (af & s1 & E & GO & RC & Gr & _).
  exists af, s1. cbv zeta. set (p := ex_p 0 musl 1000 vzero false) in *. set (s0 := initial_state p _ _) in *.
  assert (Wd : wide p s0 s1 (APlate still_wall)).
  { cbn [wide still_wall pl_type ext_dir]. split; [reflexivity|]. split; [exact RC|]. cbv zeta. intros X free _ M U. set (l := particles (s_p s0)) in *.
    specialize (U 1%nat ltac:(cbn; lia)). rewrite Gr in U.
    assert (Ip : internal p l X 1 = 0) by (unfold internal, sum_axes, l; cbn; field).
    assert (Pj : projected p l X 1 = 0) by (unfold projected, carried, sum_axes, l; cbn; destruct (Rlt_dec _ _); [lra|]; unfold Rdiv; ring).
    rewrite Ip, Pj in U. set (m := particle_mass p * _) in *. assert (F0 : vget free 1 = 0) by (rewrite vzero_get in U by (cbn; lia); apply Rmult_eq_reg_l with m; lra).
    assert (EX : vget (predicted (s_dt s1) X free) 1 = vget X 1) by (unfold predicted; rewrite vget_add, vget_lscale, F0 by (cbn; lia); numR; ring). rewrite EX.
    assert (K : exists q, In q l /\ weight p X (q_x q) <> 0).
    { destruct (Req_dec (weight p X (e2 (1/2) (1/4))) 0) as [Z1|Z1]; [|exists (nth 0 l (mkP1 vzero vzero vzero vzero (mkHist 0 0 0 0 0 0) mzero mzero mzero)); split; [left; reflexivity|exact Z1]].
      destruct (Req_dec (weight p X (e2 (-1/2) (3/4))) 0) as [Z2|Z2]; [|exists (nth 1 l (mkP1 vzero vzero vzero vzero (mkHist 0 0 0 0 0 0) mzero mzero mzero)); split; [right; left; reflexivity|exact Z2]].
      exfalso. unfold m, l in M. cbn [particles s_p s0] in M. revert M. change (particles (s_p s0)) with [nth 0 l (mkP1 vzero vzero vzero vzero (mkHist 0 0 0 0 0 0) mzero mzero mzero); nth 1 l (mkP1 vzero vzero vzero vzero (mkHist 0 0 0 0 0 0) mzero mzero mzero)].
      cbn [Rsum]. change (q_x (nth 0 l _)) with (e2 (1/2) (1/4)). change (q_x (nth 1 l _)) with (e2 (-1/2) (3/4)). rewrite Z1, Z2. lra. }
    destruct K as (q & Hq & Wq). assert (Qy : 0 <= vget (q_x q) 1 <= 1) by (destruct Hq as [<-|[<-|[]]]; cbn; lra).
    assert (B : Rabs ((vget (q_x q) 1 - vget X 1) / dx p) < 3/2).
    { apply Rnot_le_lt. intros C. apply Wq. unfold weight. change (seq 0 dim) with [0%nat; 1%nat]. cbn [map fold_right]. change (spline p) with Deg2. rewrite (proj1 (N_support Deg2 _ C)). numR. ring. }
    change (dx p) with 1 in B. unfold Rdiv in B. rewrite Rinv_1, Rmult_1_r in B. apply Rabs_def2 in B. cbn [pl_lower pl_upper still_wall]. lra. }
  split; [cbn; lra|]. split; [cbn; lra|]. split; [cbn; lra|]. split; [reflexivity|]. split; [exact rev_valid|]. split; [apply ex_wf|]. split; [exact E|]. split; [exact GO|].
  split; [cbn; lia|]. split; [reflexivity|]. split; [|split; [|split; [exact Wd|]]].
  - split; [intros o []|]. intros q [<-|[]]. repeat split. right. split; [reflexivity|]. cbn. lra.
  - now left.
  - split; [eapply br_step; [exact rev_valid|exact E|exact GO|exact Wd|constructor]|]. unfold kernel_radius. change (spline p) with Deg2. cbn [degree INR]. change (dx p) with 1.
    split; [lra|]. split; [right; now left|]. unfold depth. cbn. lra.
Qed.

(** The same cloud falling on slippery ground at y = 0, one particle at height 1/4. *)
Definition ground_p : @Par R (Geo2 R) :=
  {| spline := Deg2; end_frame := 1; use_pbc := false; change_pos := false; gravity_special := false;
     save_sim := true; save_grid := true; use_mibf := false; use_musl := true;
     grid_ref := vtab (fun _ => 20000000000); gravity0 := e2 0 (-10);
     min_dt := 1/100000000000000; fps := 1000; cfl := 1/2; cfl_elastic := 1/2; flip_ratio := 1/2;
     rho := 1000; gravity_time := 2; Lx := 1; Ly := 1; Lz := 1;
     particle_mass := 1; particle_volume := 1; dx := 1;
     elastic_model := Hencky; plastic_model := NoPlasticity; hardening_law := ExpoImpl;
     use_pradhana := true; young := 1000; nu := 3/10; stress_tolerance := 1/100000; xi := 0;
     q_max := 100; q_min := 100; p_min := -100000000000000000000;
     Mfric := 1; q_cohesion := 0; visc_exponent := 1; visc_time := 0; use_dl := false;
     beta := 0; p0 := 1000; rho_s := 2500; grain_diameter := 1/1000; I_ref := 279/1000;
     mu_1 := 38/100; mu_2 := 64/100; q_prefac := 1 / sqrt 2; objects := [mkObj (G := Geo2 R) (Ground 0) SlipFree (3/10)] |}.
Example C74_ground_ex : forall svd uabs, exists af s1,
  let p := ground_p in let s0 := initial_state p (two_particles (e2 1 (-20)) (e2 0 (-20)) mzero mzero mident mzero) [still_wall] in let b := AGround 0 in
  0 < dx p /\ 0 < particle_mass p /\ 0 <= min_dt p /\ change_pos p = false /\ valid_sched rev_sched /\ well_formed s0 2 /\
  advanceStep svd uabs af p rev_sched s0 = Ok s1 /\ GridOk p (s_axes s1) /\ (bar_axis b < 2)%nat /\ use_pbc p = false /\
  still_scene p (bar_axis b) (s_plates s0) /\ present p (s_plates s0) b /\ wide p s0 s1 b /\ barrier_run svd uabs af p b s0 1 (tick p s1) /\
  kernel_radius p = 3/2 /\ In (e2 (1/2) (1/4)) (p_x (s_p s0)) /\ depth b (e2 (1/2) (1/4)) = -1/4.
Proof.
  intros svd uabs. set (p := ground_p). set (s0 := initial_state p (two_particles (e2 1 (-20)) (e2 0 (-20)) mzero mzero mident mzero) [still_wall]).
  destruct (first_step (GL := geolaws _ (or_introl eq_refl)) svd uabs p rev_sched s0 2) as (af & H); auto.
  - cbn. lra.
  - apply rev_valid.
  - apply ex_wf.
  - intros o X [<-|[]]. cbn. eexists. split; [reflexivity|]. intros _. eexists. reflexivity.
  - now apply no_plasticity.
  - intros x k Hx Hk. change (dx p) with 1.
    destruct Hx as [<-|[<-|[]]]; destruct k as [|[|k]]; cbn in Hk |- *; try lia; unfold Rabs; destruct (Rcase_abs _); lra.
  - intros k Hk Hc. exfalso. cbn in Hc. lra.
  - destruct (H af (le_n _)) as (s1 & E & GO & _). exists af, s1. cbv zeta. fold p. fold s0.
    split; [cbn; lra|]. split; [cbn; lra|]. split; [cbn; lra|]. split; [reflexivity|]. split; [exact rev_valid|]. split; [apply ex_wf|]. split; [exact E|]. split; [exact GO|].
    split; [cbn; lia|]. split; [reflexivity|]. split; [|split; [|split; [exact I|]]].
    + split; [intros o [<-|[]]; eexists; reflexivity|]. intros q [<-|[]]. repeat split. right. split; [reflexivity|]. cbn. lra.
    + eexists. split; [left; reflexivity|reflexivity].
    + split; [eapply br_step; [exact rev_valid|exact E|exact GO|exact I|constructor]|]. unfold kernel_radius. change (spline p) with Deg2. cbn [degree INR]. change (dx p) with 1.
      split; [lra|]. split; [now left|]. unfold depth. cbn. lra.
Qed.
