(** * Main: the programs that come with the code.
    /repo/src/mpm.cpp and /repo/examples/collapse.cpp (the same program), /repo/examples/cube_rotating.cpp *)
From Coq Require Import ZArith List Bool.
From Verif Require Import Num Tools Lin Types Remesh Objects Transfer Rma Plastic Pbc Step Sampling.
Import ListNotations.
Local Open Scope num_scope.

Section Main.
  Context {A : Type} {NA : Num A} {G : Geo A}.
  Variable svd : TM -> TM * TV * TM.
  Variable uabs : A -> A.
  (** std::tan, not among the operations of [Num]; an arbitrary function. *)
  Variable ntan : A -> A.
  (** SPLINEDEG, set when compiling. *)
  Variable deg : Spline.
  (** What dx, particle_mass and particle_volume hold before they are set; never read by the programs below. *)
  Variable junk : A.

  Definition m_pi : A := nofQ 3141592653589793 1000000000000000.   (* M_PI *)
  Definition degrees (a : A) : A := a * m_pi / #180.

  (** [Simulation sim;], simulation.hpp:36-114. *)
  Definition new_simulation : Par A :=
    {| spline := deg; end_frame := 1; use_pbc := false; change_pos := false; gravity_special := false;
       save_sim := true; save_grid := false; use_mibf := false; use_musl := false;
       grid_ref := lscale (#20000000000) vones; gravity0 := vzero;
       min_dt := nofQ 1 100000000000000; fps := #1; cfl := 1//2; cfl_elastic := 1//2;
       flip_ratio := nofQ (-95) 100; rho := #1000; gravity_time := #0; Lx := #1; Ly := #1; Lz := #1;
       particle_mass := junk; particle_volume := junk; dx := junk;
       elastic_model := Hencky; plastic_model := NoPlasticity; hardening_law := ExpoImpl;
       use_pradhana := true; young := #1000000; nu := 3//10; stress_tolerance := 1//100000; xi := #0;
       q_max := #100; q_min := #100; p_min := #(-100000000000000000000);
       Mfric := #1; q_cohesion := #0; visc_exponent := #1; visc_time := #0; use_dl := false;
       beta := #0; p0 := #1000; rho_s := #2500; grain_diameter := 1//1000; I_ref := 279//1000;
       mu_1 := ntan (degrees (209//10)); mu_2 := ntan (degrees (328//10));
       q_prefac := #1 / nsqrt (#2); objects := [] |}.

  (** ObjectPlate(pos, type, bc) with the default arguments, object_plate.hpp:13-28, 88-101. *)
  Definition new_plate (pos : A) (ty : PlateType) (bc : BC) : Plate A :=
    mkPlate pos ty bc (#0) (#(-1000000000000000)) (#1000000000000000) vzero vzero (#1) (#0).

  (** Default ppc of sampleParticles, sampling_particles.hpp:13, 79. *)
  Definition default_ppc : A := match dim with 2%nat => #6 | _ => #8 end.

  (** ** mpm.cpp:18-84, collapse.cpp *)
  (** The settings before the particles are sampled, mpm.cpp:23-51.  theta = 0 degrees. *)
  Definition collapse_before : Par A :=
    let theta := degrees (#0) in
    let p := new_simulation in
    {| spline := spline p; end_frame := 20; use_pbc := use_pbc p; change_pos := change_pos p; gravity_special := gravity_special p;
       save_sim := true; save_grid := true; use_mibf := use_mibf p; use_musl := use_musl p;
       grid_ref := grid_ref p;
       gravity0 := vset (vset vzero 0 (981//100 * nsin theta)) 1 (nofQ (-981) 100 * ncos theta);
       min_dt := min_dt p; fps := #10; cfl := 1//2; cfl_elastic := cfl_elastic p;
       flip_ratio := nofQ (-95) 100; rho := #1000; gravity_time := gravity_time p; Lx := #1; Ly := #1;
       Lz := match dim with 2%nat => Lz p | _ => #5 end;
       particle_mass := particle_mass p; particle_volume := particle_volume p; dx := dx p;
       elastic_model := Hencky; plastic_model := plastic_model p; hardening_law := hardening_law p;
       use_pradhana := use_pradhana p; young := #1000000; nu := 3//10; stress_tolerance := stress_tolerance p; xi := xi p;
       q_max := q_max p; q_min := q_min p; p_min := p_min p;
       Mfric := Mfric p; q_cohesion := q_cohesion p; visc_exponent := visc_exponent p; visc_time := visc_time p; use_dl := use_dl p;
       beta := beta p; p0 := p0 p; rho_s := rho_s p; grain_diameter := grain_diameter p; I_ref := I_ref p;
       mu_1 := mu_1 p; mu_2 := mu_2 p; q_prefac := q_prefac p; objects := objects p |}.
  (** sampleParticles(sim, 0.01), mpm.cpp:52. [samples]: what the Poisson sampler returned. *)
  Definition collapse_sampled (samples : list TV) : Sampled A := sample collapse_before default_ppc 0 samples.
  (** mpm.cpp:52-81: the settings with which simulate() is called. *)
  Definition collapse_par (samples : list TV) : Par A :=
    let p := collapse_before in
    let sa := collapse_sampled samples in
    {| spline := spline p; end_frame := end_frame p; use_pbc := use_pbc p; change_pos := change_pos p; gravity_special := gravity_special p;
       save_sim := save_sim p; save_grid := save_grid p; use_mibf := use_mibf p; use_musl := use_musl p;
       grid_ref := vzero; gravity0 := gravity0 p;
       min_dt := min_dt p; fps := fps p; cfl := cfl p; cfl_elastic := cfl_elastic p;
       flip_ratio := flip_ratio p; rho := rho p; gravity_time := gravity_time p; Lx := Lx p; Ly := Ly p; Lz := Lz p;
       particle_mass := sa_mass sa; particle_volume := sa_vol sa; dx := sa_dx sa;
       elastic_model := elastic_model p; plastic_model := DPVisc; hardening_law := hardening_law p;
       use_pradhana := true; young := young p; nu := nu p; stress_tolerance := stress_tolerance p; xi := xi p;
       q_max := q_max p; q_min := q_min p; p_min := p_min p;
       Mfric := ntan (degrees (#30)); q_cohesion := #0; visc_exponent := #1; visc_time := #0; use_dl := use_dl p;
       beta := beta p; p0 := p0 p; rho_s := rho_s p; grain_diameter := grain_diameter p; I_ref := I_ref p;
       mu_1 := mu_1 p; mu_2 := mu_2 p; q_prefac := #1 / nsqrt (#2); objects := objects p |}.
  (** mpm.cpp:55-58 *)
  Definition collapse_x (p : Par A) (x : TV) : TV :=
    let x1 := vset x 0 (vget x 0 - 1//2 * Lx p) in vset x1 1 (vget x1 1 + 1//2 * dx p).
  Definition with_x (P : Particles A) (xs : list TV) : Particles A :=
    mkParticles xs (p_v P) (p_pic P) (p_flip P) (p_hist P) (p_F P) (p_B P) (p_tau P).
  Definition collapse_state (samples : list TV) : St A :=
    let p := collapse_par samples in
    let P := sa_p (collapse_sampled samples) in
    initial_state p (with_x P (map (collapse_x p) (p_x P))) [new_plate (#0) pbottom NoSlip].
  (** main(): initialize() has been called. *)
  Definition collapse_main (fuel af : nat) (sch : nat -> Sched) (samples : list TV) : res (Stop * St A * list (Ev A)) :=
    simulate svd uabs fuel af (collapse_par samples) true sch (collapse_state samples).

  (** ** cube_rotating.cpp:7-69; the energies it prints at the end are not modelled. *)
  Definition rotating_before : Par A :=
    let p := new_simulation in
    {| spline := spline p; end_frame := 20; use_pbc := use_pbc p; change_pos := change_pos p; gravity_special := gravity_special p;
       save_sim := true; save_grid := true; use_mibf := use_mibf p; use_musl := use_musl p;
       grid_ref := grid_ref p; gravity0 := vzero;
       min_dt := min_dt p; fps := #1; cfl := 1//2; cfl_elastic := cfl_elastic p;
       flip_ratio := #(-1); rho := rho p; gravity_time := gravity_time p; Lx := #1; Ly := #1;
       Lz := match dim with 2%nat => Lz p | _ => 5//100 end;
       particle_mass := particle_mass p; particle_volume := particle_volume p; dx := dx p;
       elastic_model := elastic_model p; plastic_model := plastic_model p; hardening_law := hardening_law p;
       use_pradhana := use_pradhana p; young := young p; nu := nu p; stress_tolerance := stress_tolerance p; xi := xi p;
       q_max := q_max p; q_min := q_min p; p_min := p_min p;
       Mfric := Mfric p; q_cohesion := q_cohesion p; visc_exponent := visc_exponent p; visc_time := visc_time p; use_dl := use_dl p;
       beta := beta p; p0 := p0 p; rho_s := rho_s p; grain_diameter := grain_diameter p; I_ref := I_ref p;
       mu_1 := mu_1 p; mu_2 := mu_2 p; q_prefac := q_prefac p; objects := objects p |}.
  Definition rotating_sampled (samples : list TV) : Sampled A := sample rotating_before default_ppc 0 samples.
  (** cube_rotating.cpp:44-49: elasticity and density are set after the particles are sampled. *)
  Definition rotating_par (samples : list TV) : Par A :=
    let p := rotating_before in
    let sa := rotating_sampled samples in
    {| spline := spline p; end_frame := end_frame p; use_pbc := use_pbc p; change_pos := change_pos p; gravity_special := gravity_special p;
       save_sim := save_sim p; save_grid := save_grid p; use_mibf := use_mibf p; use_musl := use_musl p;
       grid_ref := grid_ref p; gravity0 := gravity0 p;
       min_dt := min_dt p; fps := fps p; cfl := cfl p; cfl_elastic := cfl_elastic p;
       flip_ratio := flip_ratio p; rho := #1550; gravity_time := gravity_time p; Lx := Lx p; Ly := Ly p; Lz := Lz p;
       particle_mass := sa_mass sa; particle_volume := sa_vol sa; dx := sa_dx sa;
       elastic_model := Hencky; plastic_model := NoPlasticity; hardening_law := hardening_law p;
       use_pradhana := use_pradhana p; young := #1000000; nu := 3//10; stress_tolerance := stress_tolerance p; xi := xi p;
       q_max := q_max p; q_min := q_min p; p_min := p_min p;
       Mfric := Mfric p; q_cohesion := q_cohesion p; visc_exponent := visc_exponent p; visc_time := visc_time p; use_dl := use_dl p;
       beta := beta p; p0 := p0 p; rho_s := rho_s p; grain_diameter := grain_diameter p; I_ref := I_ref p;
       mu_1 := mu_1 p; mu_2 := mu_2 p; q_prefac := q_prefac p; objects := objects p |}.
  (** cube_rotating.cpp:31-40: position and velocity of a particle. *)
  Definition rotating_x (p : Par A) (x : TV) : TV :=
    let x1 := vset x 0 (vget x 0 - 1//2 * Lx p) in vset x1 1 (vget x1 1 - 1//2 * Ly p).
  Definition rotating_v (x v : TV) : TV :=
    vset (vset v 0 (#(-1) * vget x 1 + 1//2)) 1 (#1 * vget x 0 + 1//2).
  Definition rotating_state (samples : list TV) : St A :=
    let p := rotating_par samples in
    let P := sa_p (rotating_sampled samples) in
    let xs := map (rotating_x p) (p_x P) in
    initial_state p
      (mkParticles xs (map (fun xv => rotating_v (fst xv) (snd xv)) (combine xs (p_v P)))
                   (p_pic P) (p_flip P) (p_hist P) (p_F P) (p_B P) (p_tau P)) [].
  Definition rotating_main (fuel af : nat) (sch : nat -> Sched) (samples : list TV) : res (Stop * St A * list (Ev A)) :=
    simulate svd uabs fuel af (rotating_par samples) true sch (rotating_state samples).
End Main.
