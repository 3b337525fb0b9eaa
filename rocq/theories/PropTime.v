(** * Properties C25-C29: time steps, frames, termination, guards, gravity ramp. *)
From Coq Require Import Reals ZArith Lra Lia List Bool Floats.SpecFloat.
From Verif Require Import Num NumR NumF Tools Lin Types Remesh Objects Transfer Rma Plastic Pbc Step SpecObj SpecStep SpecTime Spec LinProofs ResProofs
  PlateProofs TimeProofs FuelProofs GuardProofs Examples ExamplesF ExStep.
Import ListNotations.
Local Open Scope R_scope.

(** ** C25 *)
(** [dt] is the size of a step that starts at time [t] in frame [s_frame s0].  Speeds up to 1e-10
    are treated as rest by the code, hence the last condition. *)
Theorem C25_time_step_limits : forall (G : Geo R), two_or_three G ->
  forall svd uabs af p sc s0 s1, 0 <= min_dt p -> advanceStep svd uabs af p sc s0 = Ok s1 ->
  let dt := s_dt s1 in let t := s_time s0 in
  min_dt p <= dt /\
  dt <= Rmax (min_dt p) (cfl_elastic p * dx p / sqrt (young p / rho p)) /\
  dt <= Rmax (min_dt p) (IZR (s_frame s0 + 1) / fps p - t) /\
  dt <= Rmax (min_dt p) (IZR (end_frame p) / fps p - t) /\
  (0 <= cfl p * dx p -> forall v, In v (p_v (s_p s0)) -> 1/10000000000 < vnorm v -> dt = min_dt p \/ dt * vnorm v <= cfl p * dx p).
Proof.
  intros G HG svd uabs af p sc s0 s1 Hm H dt t.
  destruct (step_dt svd uabs af p sc s0 s1 H) as (sp & Es & Ed). unfold dt. rewrite Ed. fold t.
  split; [apply dt_lower|]. split; [apply dt_elastic|].
  split; [replace (IZR (s_frame s0 + 1) / fps p) with (frame_dt p * IZR (s_frame s0 + 1)) by (rewrite frame_dt_R; unfold Rdiv; lra); apply dt_frame|].
  split; [replace (IZR (end_frame p) / fps p) with (final_time p) by (rewrite final_R, frame_dt_R; unfold Rdiv; lra); apply dt_final|].
  intros Hc v Hv Hs. apply max_speed_spec in Es. destruct Es as (S0 & _ & Sm). pose proof (Sm v Hv).
  destruct (dt_cfl p sp t (s_frame s0) Hc S0 ltac:(lra)) as [E|E]; [auto|]. right.
  eapply Rle_trans; [|exact E]. apply Rmult_le_compat_l; auto.
  eapply Rle_trans; [exact Hm|apply dt_lower].
Qed.
(** The condition on speeds is necessary: with a particle speed of 1e-10 or less, whatever cfl is,
    the step is not limited by it. *)
Theorem C25_slow_particles_ignored : forall (G : Geo R), two_or_three G -> forall p sp t f, Rabs sp <= 1/10000000000 ->
  dt_of p sp t f = dt_of p 0 t f.
Proof.
  intros G HG p sp t f H. rewrite !dt_of_spec. rewrite Rabs_R0. destruct (Rlt_dec _ (Rabs sp)); [lra|]. destruct (Rlt_dec _ 0); [lra|auto].
Qed.
(** Two moving particles, in either order of the threads. *)
Example C25_ex : forall svd uabs, exists af s1, advanceStep svd uabs af (ex_p 0 true 1000 (e2 0 (-10)) false) rev_sched
    (ex_state (ex_p 0 true 1000 (e2 0 (-10)) false) (two_particles (e2 3 4) (e2 0 1) mzero mzero mzero mzero)) = Ok s1 /\
  s_dt s1 * 5 <= 1 * (1/2).
Proof.
  intros. destruct (ex_step svd uabs rev_sched 0 true 1000 (e2 0 (-10)) false (e2 3 4) (e2 0 1) mzero mzero mzero mzero rev_valid) as (af & H).
  destruct (H af (le_n _)) as (s1 & E & _). exists af, s1. split; [exact E|].
  destruct (C25_time_step_limits _ (or_introl eq_refl) svd uabs af (ex_p 0 true 1000 (e2 0 (-10)) false) _ _ _ ltac:(cbn [min_dt ex_p]; lra) E) as (_ & _ & _ & _ & C).
  assert (Nv : vnorm (e2 3 4) = 5) by (unfold vnorm, vsqnorm, vdot; cbn; replace (3 * 3 + 4 * 4) with (5 * 5) by lra; rewrite sqrt_square; lra).
  destruct (C ltac:(cbn; lra) (e2 3 4) ltac:(cbn; auto) ltac:(rewrite Nv; lra)) as [D|D].
  - rewrite D. cbn. lra.
  - rewrite Nv in D. cbn [cfl dx ex_p] in D. lra.
Qed.
Print Assumptions C25_time_step_limits.

(** ** C26 *)
(** Files of a simulation that ends normally: frames 0,1,...,end_frame in this order, and the last
    one again; frame 0 at time 0, frame k >= 1 at a time in (k/fps - 1.1 min_dt, k/fps]. *)
Theorem C26_frames_complete_ordered_on_time : forall (G : Geo R), two_or_three G ->
  forall svd uabs fuel af p init sch s s' ev, clock_ok p -> save_sim p = true -> (1 <= end_frame p)%Z ->
  simulate svd uabs fuel af p init sch s = Ok (Finished, s', ev) ->
  map s_frame (particle_files ev) = frames_upto (end_frame p) ++ [end_frame p] /\
  forall f, In f (particle_files ev) ->
    s_frame f = 0%Z /\ s_time f = 0 \/
    (1 <= s_frame f)%Z /\ IZR (s_frame f) / fps p - 11/10 * min_dt p < s_time f <= IZR (s_frame f) / fps p.
Proof.
  intros G HG svd uabs fuel af p init sch s s' ev Ck Sv Hf H. apply sim_cases in H. destruct H as [[? _]|(ev1 & L & ->)]; [destruct H as [?|[?|?]]; discriminate|].
  destruct (loop_files svd uabs fuel af p sch 0 _ _ s' ev1 Ck Sv (start_inv p s Ck) ltac:(cbn [s_frame sim_start]; lia) L) as (T & _ & n & Ex & Ef & En & M).
  rewrite Sv, !files_app. cbn [particle_files flat_map app]. rewrite app_nil_r. cbn [map]. rewrite M. cbn [s_frame sim_start] in *.
  split.
  - rewrite frames_cons by lia. cbn [app]. f_equal. f_equal. rewrite <- En. f_equal. lia.
  - intros f [<-|Hi].
    + left. cbn [s_frame s_time sim_start]. rewrite nofZ_R. auto.
    + right. assert (Hk : (1 <= s_frame f)%Z).
      { assert (I : In (s_frame f) (map s_frame (particle_files ev1))) by (now apply in_map). rewrite M in I. apply in_app_or in I. destruct I as [I|[<-|[]]]; [|lia].
        apply upfrom_In in I. lia. }
      split; auto. pose proof (proj1 (Forall_forall _ _) T f Hi) as ((A1 & A2) & _). rewrite frame_dt_R in A1, A2. unfold Rdiv in *. lra.
Qed.
(** An aborted simulation has written frames 0,...,k, where k is the frame it was in. *)
Theorem C26_frames_until_abort : forall (G : Geo R), two_or_three G ->
  forall svd uabs fuel af p init sch s s' ev, clock_ok p -> save_sim p = true ->
  simulate svd uabs fuel af p init sch s = Ok (Aborted, s', ev) ->
  map s_frame (particle_files ev) = frames_upto (s_frame s') /\
  forall f, In f (particle_files ev) -> IZR (s_frame f) / fps p - 11/10 * min_dt p < s_time f <= IZR (s_frame f) / fps p.
Proof.
  intros G HG svd uabs fuel af p init sch s s' ev Ck Sv H. apply sim_cases in H. destruct H as [[? _]|(ev1 & L & ->)]; [destruct H as [?|[?|?]]; discriminate|].
  destruct (Z.lt_ge_cases 0 (end_frame p)) as [Hf|Hf].
  2:{ destruct fuel; cbn [sim_loop] in L; cbn [s_frame sim_start] in L; (destruct (Z.ltb_spec 0 (end_frame p)); [lia|discriminate]). }
  destruct (loop_files svd uabs fuel af p sch 0 _ _ s' ev1 Ck Sv (start_inv p s Ck) ltac:(cbn [s_frame sim_start]; lia) L) as (T & _ & n & Ex & En & _ & M).
  rewrite Sv, !files_app. cbn [particle_files flat_map app]. rewrite app_nil_r. cbn [map]. rewrite M. cbn [s_frame sim_start] in *.
  split.
  - rewrite frames_cons by lia. f_equal. f_equal. rewrite En. lia.
  - destruct Ck as (C1 & C2 & C3). intros f [<-|Hi].
    + cbn [s_frame s_time sim_start]. rewrite nofZ_R. unfold Rdiv. lra.
    + pose proof (proj1 (Forall_forall _ _) T f Hi) as ((A1 & A2) & _). rewrite frame_dt_R in A1, A2. unfold Rdiv in *. lra.
Qed.
(** In every arithmetic, binary64 included, and with any output settings: the frames are written
    in the order 0,1,...,k with no gap, k being the frame the simulation ends in; only the last
    one may be written twice, and only by a simulation that ends normally. *)
Theorem C26_frames_in_order : forall {A : Type} {NA : Num A} (G : Geo A) svd uabs fuel af p init sch s st s' ev,
  save_sim p = true -> simulate svd uabs fuel af p init sch s = Ok (st, s', ev) -> st = Finished \/ st = Aborted ->
  (0 <= s_frame s' <= Z.max 0 (end_frame p))%Z /\
  (map s_frame (particle_files ev) = frames_upto (s_frame s') \/
   st = Finished /\ map s_frame (particle_files ev) = frames_upto (s_frame s') ++ [s_frame s']).
Proof.
  intros A NA G svd uabs fuel af p init sch s st s' ev Sv H Hst. apply sim_cases in H. destruct H as [(C & _)|(ev1 & L & ->)].
  { destruct C as [->|[->| ->]], Hst; discriminate. }
  destruct (loop_order svd uabs fuel af p sch 0 _ _ _ _ Sv L) as (n & N1 & N2 & N3). cbn [s_frame sim_start] in N1, N2, N3.
  assert (T : forall st (s2 : St A), particle_files (match st with Finished => if save_sim p then [EvTiming (s_step s2)] else [] | _ => [] end) = []) by (intros [] ?; rewrite ?Sv; reflexivity).
  rewrite !files_app, T, app_nil_r, Sv. cbn [particle_files flat_map app map]. fold (particle_files ev1). cbn [s_frame sim_start].
  split; [lia|]. rewrite frames_cons by lia. replace (Z.to_nat (s_frame s')) with n by lia. cbn [app].
  destruct N3 as [->|(-> & ->)]; [now left|right; auto].
Qed.
(** The simulation of two particles at rest for one frame ends normally. *)
Example C26_ex : forall svd uabs, exists af s' ev, let p := ex_p 0 false 1000 vzero false in
  clock_ok p /\ simulate svd uabs 1 af p true (fun _ => seq_sched) (ex_state p at_rest) = Ok (Finished, s', ev) /\
  map s_frame (particle_files ev) = [0; 1; 1]%Z.
Proof.
  intros. destruct (ex_sim svd uabs (fun _ => seq_sched) 0 false vzero false (fun _ => seq_valid)) as (af & H).
  destruct (H af 0%nat (le_n _)) as (s1 & s' & ev & _ & _ & _ & E). exists af, s', ev. cbv zeta.
  split; [apply ex_clock; lra|]. split; [exact E|].
  destruct (C26_frames_complete_ordered_on_time _ (or_introl eq_refl) svd uabs 1 af (ex_p 0 false 1000 vzero false) _ _ _ _ _
    ltac:(apply ex_clock; lra) eq_refl ltac:(cbn; lia) E) as (M & _). exact M.
Qed.
Print Assumptions C26_frames_complete_ordered_on_time.
Print Assumptions C26_frames_until_abort.
Print Assumptions C26_frames_in_order.

(** ** C27 *)
(** [fuel] bounds the number of steps, [af] the loops that lay out the grid: the simulation ends,
    or reaches undefined behaviour, within final_time/min_dt steps. *)
Theorem C27_simulations_terminate : forall (G : Geo R), two_or_three G ->
  forall svd uabs p init sch s fuel, 0 < dx p -> objects_return p -> clock_ok p ->
  IZR (end_frame p) / fps p <= INR fuel * min_dt p ->
  exists af0, forall af, (af0 <= af)%nat -> simulate svd uabs fuel af p init sch s <> NoFuel.
Proof.
  intros G HG svd uabs p init sch s fuel Hd Ho Ck Hn.
  destruct (loop_settles svd uabs fuel p sch 0 (sim_start p s) Hd Ho Ck (start_inv p s Ck)) as (f0 & v & Nf & E).
  { cbn [s_time sim_start]. rewrite nofZ_R, final_R, frame_dt_R. unfold Rdiv in *. lra. }
  exists f0. intros af Ha. unfold simulate. destruct init; cbn [negb]; [|discriminate]. destruct (model_ok p); cbn [negb]; [|discriminate]. destruct (s_exit s); [discriminate|].
  cbv zeta. rewrite E by auto. destruct v as [[[? ?] ?]| |]; cbn [bind]; try discriminate. contradiction.
Qed.
Example C27_ex : let p := ex_p 0 false 1000 vzero false in
  0 < dx p /\ objects_return p /\ clock_ok p /\ exists fuel, IZR (end_frame p) / fps p <= INR fuel * min_dt p.
Proof.
  cbv zeta. split; [cbn; lra|]. split; [intros o []|]. split; [apply ex_clock; lra|].
  exists (Z.to_nat 100000000000000). rewrite INR_IZR_INZ, Z2Nat.id by lia. cbn [end_frame fps min_dt ex_p]. lra.
Qed.
Print Assumptions C27_simulations_terminate.

(** In binary64 the statement fails: with the default min_dt = 1e-14, from simulated time 128 on
    the sum time + dt rounds to time.  A step with particles faster than 1e20 (speeds of a
    diverged simulation) leaves clock and frame unchanged and is not the last one. *)
Definition stall_par (L : Libm) : @Par F (Geo2 F) := let nf := NumF L in
  gpar (G := Geo2 F) Deg2 (nofZ 1) (nofZ 0) NoPlasticity ExpoImpl false false false [].
Definition with_end {A} {G : Geo A} (p : Par A) (n : Z) : Par A :=
  {| spline := spline p; end_frame := n; use_pbc := use_pbc p; change_pos := change_pos p; gravity_special := gravity_special p;
     save_sim := save_sim p; save_grid := save_grid p; use_mibf := use_mibf p; use_musl := use_musl p;
     grid_ref := grid_ref p; gravity0 := gravity0 p;
     min_dt := min_dt p; fps := fps p; cfl := cfl p; cfl_elastic := cfl_elastic p; flip_ratio := flip_ratio p;
     rho := rho p; gravity_time := gravity_time p; Lx := Lx p; Ly := Ly p; Lz := Lz p;
     particle_mass := particle_mass p; particle_volume := particle_volume p; dx := dx p;
     elastic_model := elastic_model p; plastic_model := plastic_model p; hardening_law := hardening_law p;
     use_pradhana := use_pradhana p; young := young p; nu := nu p; stress_tolerance := stress_tolerance p; xi := xi p;
     q_max := q_max p; q_min := q_min p; p_min := p_min p;
     Mfric := Mfric p; q_cohesion := q_cohesion p; visc_exponent := visc_exponent p; visc_time := visc_time p; use_dl := use_dl p;
     beta := beta p; p0 := p0 p; rho_s := rho_s p; grain_diameter := grain_diameter p; I_ref := I_ref p;
     mu_1 := mu_1 p; mu_2 := mu_2 p; q_prefac := q_prefac p; objects := objects p |}.
Lemma Ok_eq : forall X (a b : X), Ok a = Ok b -> a = b.
Proof. intros X a b H. now injection H. Qed.
Theorem C27_binary64_clock_stalls_refuted : forall (L : Libm), let NF := NumF L in
  let p := with_end (G := Geo2 F) (stall_par L) 200 in
  forall svd uabs af sc s0 s1,
  s_time s0 = nofZ 128 -> s_frame s0 = 128%Z -> max_speed (p_v (s_p s0)) = Ok (nofZ (10 ^ 20)) ->
  advanceStep svd uabs af p sc s0 = Ok s1 ->
  let s2 := tick p s1 in s_time s2 = s_time s0 /\ s_frame s2 = s_frame s0 /\ at_end p s2 = false /\ (s_frame s2 < end_frame p)%Z.
Proof.
  intros L NF p svd uabs af sc s0 s1 Ht Hf Hm H s2.
  destruct (step_clock svd uabs af p sc s0 s1 H) as (Et & Ef & _).
  destruct (step_dt_grav svd uabs af p sc s0 s1 H) as (_ & _ & sp & Es & Ed).
  rewrite Ht in Et. rewrite Hf in Ef. rewrite Hm in Es. apply Ok_eq in Es. rewrite Ht, Hf in Ed. rewrite <- Es in Ed. clear Es Hm.
  assert (D : s_dt s1 = nofQ 1 100000000000000) by (rewrite Ed; vm_compute; reflexivity).
  assert (N : nadd (s_time s1) (s_dt s1) = nofZ 128) by (rewrite D, Et; vm_compute; reflexivity).
  assert (T : s2 = with_clock s1 (nofZ 128) 128 (wrapu (s_step s1 + 1))).
  { unfold s2, tick. cbv zeta. rewrite N, Ef.
    match goal with |- (if ?b then _ else _) = _ => replace b with false by (vm_compute; reflexivity) end. reflexivity. }
  rewrite T. cbn [with_clock s_time s_frame]. repeat split; auto.
Qed.
(** Such a step exists: two particles at (1/2,1/4) and (3/2,3/4) moving with velocity (1e20,0). *)
Definition some_libm : Libm := let i := fun x : F => x in Build_Libm i i i (fun x _ => x) i i i i i i (fun x _ => x).
Definition stall_state : @St F (Geo2 F) := let nf := NumF some_libm in
  let v := f2 (nofZ (10 ^ 20)) (nofZ 0) in
  mkSt (gparticles [(f2 (nofQ 1 2) (nofQ 1 4), v, nofZ 0); (f2 (nofQ 3 2) (nofQ 3 4), v, nofZ 0)]) 2 0 [] [] []
    (nofZ 128) 128 0 (nofZ 0) vzero vzero [] false.
Example C27_stall_ex : let NF := NumF some_libm in
  max_speed (p_v (s_p stall_state)) = Ok (nofZ (10 ^ 20)) /\
  match advanceStep (fun a => (a, vtab (fun _ => nofZ 1), a)) (fun x => x) 100 (with_end (stall_par some_libm) 200) seq_sched stall_state with
  | Ok _ => True | _ => False end.
Proof. intro NF. split; vm_compute; [reflexivity|exact I]. Qed.
Print Assumptions C27_binary64_clock_stalls_refuted.

(** ** C28 *)
(** simulate() on an object that is not initialised, or has an unsupported combination of models,
    or whose setup failed, changes nothing and writes nothing. *)
Theorem C28_guards : forall {A : Type} {NA : Num A} (G : Geo A) svd uabs fuel af p init sch s,
  init = false \/ elastic_model p <> Hencky /\ plastic_model p <> NoPlasticity \/ s_exit s = true ->
  exists st, simulate svd uabs fuel af p init sch s = Ok (st, s, []).
Proof.
  intros A NA G svd uabs fuel af p init sch s H. unfold simulate. destruct init; cbn [negb]; [|eauto].
  destruct (model_ok p) eqn:M; cbn [negb]; [|eauto]. destruct (s_exit s); [eauto|]. exfalso.
  destruct H as [?|[(H1 & H2)|?]]; try discriminate. unfold model_ok in M. destruct (elastic_model p), (plastic_model p); congruence.
Qed.
(** When a step raises an error the simulation stops in that step's state; all frames come from
    states without error, and no timing file is written.  A run that ends normally had no error. *)
Theorem C28_no_frame_after_error : forall {A : Type} {NA : Num A} (G : Geo A) svd uabs fuel af p init sch s st s' ev,
  s_exit s = false -> simulate svd uabs fuel af p init sch s = Ok (st, s', ev) ->
  (forall e f, In e ev -> e = EvParticles f \/ e = EvGrid f -> s_exit f = false) /\
  (s_exit s' = true <-> st = Aborted) /\
  (st = Aborted -> forall n, ~ In (EvTiming n) ev).
Proof.
  intros A NA G svd uabs fuel af p init sch s st s' ev Hs H. apply sim_cases in H. destruct H as [(C & -> & ->)|(ev1 & L & ->)].
  { split; [intros e f []|]. split; [|intros _ n []]. rewrite Hs. split; [discriminate|]. destruct C as [->|[->| ->]]; discriminate. }
  apply loop_exit in L; [|exact Hs]. destruct L as (C & D). rewrite Forall_forall in C.
  split; [|split].
  - intros e f He Hf. apply in_app_or in He. destruct He as [He|He].
    { destruct (save_sim p); [|destruct He]. destruct He as [<-|[<-|[]]]; destruct Hf as [Hf|Hf]; try discriminate. injection Hf as <-. exact Hs. }
    apply in_app_or in He. destruct He as [He|He].
    { specialize (C e He). destruct Hf as [-> | ->]; exact C. }
    destruct st; try destruct He. destruct (save_sim p); [|destruct He]. destruct He as [<-|[]]. destruct Hf; discriminate.
  - destruct D as [(-> & ->)|(-> & ->)]; split; congruence.
  - intros -> n He. apply in_app_or in He. destruct He as [He|He].
    { destruct (save_sim p); [|destruct He]. destruct He as [He|[He|[]]]; discriminate. }
    apply in_app_or in He. destruct He as [He|[]]. exact (C _ He).
Qed.
Example C28_ex : forall svd uabs, exists af s' ev, let p := ex_p 0 true 1000 vzero false in
  simulate svd uabs 1 af p true (fun _ => seq_sched) (ex_state p at_rest) = Ok (Finished, s', ev) /\ s_exit s' = false.
Proof.
  intros. destruct (ex_sim svd uabs (fun _ => seq_sched) 0 true vzero false (fun _ => seq_valid)) as (af & H).
  destruct (H af 0%nat (le_n _)) as (s1 & s' & ev & _ & _ & _ & E). exists af, s', ev. cbv zeta. split; [exact E|].
  destruct (C28_no_frame_after_error _ svd uabs 1 af (ex_p 0 true 1000 vzero false) true (fun _ => seq_sched) (ex_state (ex_p 0 true 1000 vzero false) at_rest) _ _ _ eq_refl E) as (_ & X & _).
  destruct (s_exit s'); auto. discriminate (proj1 X eq_refl).
Qed.
Print Assumptions C28_guards.
Print Assumptions C28_no_frame_after_error.

(** ** C29 *)
(** [s_grav s2] is the gravity of the step from s1, which starts at time [s_time s1]; the user's
    gravity is [s_grav s]. *)
Theorem C29_gravity_ramp : forall (G : Geo R), two_or_three G -> forall svd uabs af p s l s1 sc s2,
  0 <= min_dt p -> run svd uabs af p (sim_start p s) l s1 -> advanceStep svd uabs af p sc s1 = Ok s2 ->
  (gravity_special p = true ->
     (forall k, (k < dim)%nat -> vget (s_grav s2) k = (if Rlt_dec (s_time s1) (gravity_time p) then s_time s1 / gravity_time p else 1) * vget (s_grav s) k) /\
     vnorm (s_grav s2) <= vnorm (s_grav s)) /\
  (gravity_special p = false -> s_grav s2 = s_grav s).
Proof.
  intros G HG svd uabs af p s l s1 sc s2 Hm Hr H. pose proof (geolaws G HG) as GL.
  apply run_gravity in Hr; auto. destruct Hr as (T & Gf & Gn). cbn [s_time s_gravf s_grav sim_start] in T, Gf, Gn. rewrite nofZ_R in T.
  destruct (step_dt_grav svd uabs af p sc s1 s2 H) as (_ & -> & _). unfold gravity_of.
  split; intros S; rewrite S; [|now apply Gn]. rewrite Gf.
  assert (Hk : forall k, (k < dim)%nat ->
    vget (if Rltb (s_time s1) (gravity_time p) then vdivs (vscale (s_grav s) (s_time s1)) (gravity_time p) else s_grav s) k =
    (if Rlt_dec (s_time s1) (gravity_time p) then s_time s1 / gravity_time p else 1) * vget (s_grav s) k).
  { intros k Hk. destruct (Rltb_spec (s_time s1) (gravity_time p)), (Rlt_dec (s_time s1) (gravity_time p)); try contradiction; [|lra].
    rewrite vget_divs, vget_scale by auto. unfold Rdiv. lra. }
  split; [exact Hk|].
  apply (norm_scaled _ _ (if Rlt_dec (s_time s1) (gravity_time p) then s_time s1 / gravity_time p else 1)); [|exact Hk].
  destruct (Rlt_dec (s_time s1) (gravity_time p)); [|rewrite Rabs_R1; lra].
  rewrite Rabs_right; [|apply Rle_ge; apply Rmult_le_pos; [lra|left; apply Rinv_0_lt_compat; lra]].
  apply Rmult_le_reg_r with (gravity_time p); [lra|]. unfold Rdiv. rewrite Rmult_assoc, Rinv_l; lra.
Qed.
(** Gravity (0,-10) with ramp time 2: a first step. *)
Example C29_ex : forall svd uabs, exists af s2, let p := ex_p 0 false 1000 (e2 0 (-10)) true in let s := ex_state p at_rest in
  gravity_special p = true /\ vget (s_grav s) 1 = -10 /\ run svd uabs af p (sim_start p s) [] (sim_start p s) /\
  advanceStep svd uabs af p seq_sched (sim_start p s) = Ok s2.
Proof.
  intros. destruct (ex_sim svd uabs (fun _ => seq_sched) 0 false (e2 0 (-10)) true (fun _ => seq_valid)) as (af & H).
  destruct (H af 0%nat (le_n _)) as (s1 & s' & ev & _ & _ & E & _). exists af, s1. cbv zeta. repeat split; auto. constructor.
Qed.
(** The ramp is not restarted by a second call: simulate() takes the gravity left by the previous
    call as the user's.  After a first call that ends before gravity_time, here after a single step
    at time 0, a second simulation never reaches the user's gravity (0,-10) but keeps zero. *)
Theorem C29_second_simulation_refuted : exists p s, gravity_special p = true /\ vget (s_grav s) 1 = -10 /\
  forall svd uabs, exists af s' ev, simulate svd uabs 1 af p true (fun _ => seq_sched) s = Ok (Finished, s', ev) /\
  forall af' l s1 sc s2, run svd uabs af' p (sim_start p s') l s1 -> advanceStep svd uabs af' p sc s1 = Ok s2 ->
  s_grav s2 = vzero.
Proof.
  set (p := ex_p 0 false 1000 (e2 0 (-10)) true). exists p, (ex_state p at_rest). split; [reflexivity|]. split; [reflexivity|].
  intros. destruct (ex_sim svd uabs (fun _ => seq_sched) 0 false (e2 0 (-10)) true (fun _ => seq_valid)) as (af & H).
  destruct (H af 0%nat (le_n _)) as (s1 & s' & ev & _ & Es & E & Em). fold p in Es, E, Em. exists af, s', ev. split; [exact Em|].
  assert (Gz : forall k, (k < 2)%nat -> vget (s_grav s') k = 0).
  { intros k Hk. rewrite Es, (proj1 (tick_grav p s1)).
    destruct (C29_gravity_ramp _ (or_introl eq_refl) svd uabs af p (ex_state p at_rest) [] _ _ _ ltac:(unfold p; cbn; lra) (run_nil _ _ _ _ _) E) as (X & _).
    destruct (X eq_refl) as (Y & _). rewrite Y by auto. change (s_time (sim_start p (ex_state p at_rest))) with (0 / 1). change (gravity_time p) with 2.
    destruct (Rlt_dec _ 2); [|lra]. unfold Rdiv. lra. }
  intros af' l t1 sc t2 Hr Ht. destruct (C29_gravity_ramp _ (or_introl eq_refl) svd uabs af' p s' l t1 sc t2 ltac:(unfold p; cbn; lra) Hr Ht) as (X & _).
  destruct (X eq_refl) as (Y & _). apply (vext (GeoLaws := geolaws _ (or_introl eq_refl))). intros k Hk. rewrite (Y k Hk), (Gz k Hk).
  destruct k as [|[|k]]; cbn; lra || (cbn in Hk; lia).
Qed.
Print Assumptions C29_gravity_ramp.
Print Assumptions C29_second_simulation_refuted.
