(** * SpecShift: what it means to move a whole set-up by a vector. *)
From Coq Require Import Reals ZArith List Bool.
From Verif Require Import Num NumR Tools Lin Types Objects Step.
Import ListNotations.
Local Open Scope R_scope.

Section Shift.
  Context {G : Geo R}.
  Variable a : TV.
  Definition move (x : TV) : TV := vtab (fun k => vget x k + vget a k).
  (** Entry [k] of a list gets the [k]-th component of [a]. *)
  Fixpoint by_axis {X} (f : R -> X -> X) (k : nat) (l : list X) : list X :=
    match l with [] => [] | x :: r => f (vget a k) x :: by_axis f (S k) r end.
  Definition move_axis (c : R) (ax : Axis R) : Axis R := mkAxis (map (fun x => x + c) (ax_co ax)) (ax_c ax + c).
  Definition move_mesh (c : R) (m : MeshAx R) : MeshAx R := mkMeshAx (ma_min m + c) (ma_max m + c) (ma_low m + c) (ma_high m + c).
  (** A plate has a position along its normal and, for the left, right, bottom and top ones, two ends. *)
  Definition move_plate (pl : Plate R) : Plate R :=
    let '(n, t) := match pl_type pl with
                   | pleft | pright => (vget a 0, vget a 1)
                   | pbottom | ptop => (vget a 1, vget a 0)
                   | pback | pfront => (vget a 2, 0)
                   end in
    mkPlate (pl_pos pl + n) (pl_type pl) (pl_bc pl) (pl_fric pl) (pl_lower pl + t) (pl_upper pl + t) (pl_v pl) (pl_v0 pl) (pl_vmin pl) (pl_load pl).
  Definition move_particles (P : Particles R) : Particles R :=
    mkParticles (map move (p_x P)) (p_v P) (p_pic P) (p_flip P) (p_hist P) (p_F P) (p_B P) (p_tau P).
  (** Velocities, stresses, strains, clock and counters are the same. *)
  Definition move_state (s : St R) : St R :=
    mkSt (move_particles (s_p s)) (s_Np s) (s_nadd s) (by_axis move_axis 0 (s_axes s)) (s_nodes s) (by_axis move_mesh 0 (s_mesh s))
      (s_time s) (s_frame s) (s_step s) (s_dt s) (s_grav s) (s_gravf s) (map move_plate (s_plates s)) (s_exit s).
  Definition move_output (e : Ev R) : Ev R :=
    match e with EvParticles s => EvParticles (move_state s) | EvGrid s => EvGrid (move_state s) | e => e end.
  (** Obstacle [o'] is obstacle [o] moved by [a]. *)
  Definition obstacle_moved (o o' : Obj R) : Prop :=
    ob_bc o' = ob_bc o /\ ob_fric o' = ob_fric o /\
    forall X, inside (ob_shape o') (move X) = inside (ob_shape o) X /\ normal (ob_shape o') (move X) = normal (ob_shape o) X.
  (** The reference point of the grid, if one is given (a first coordinate below 10^10), is moved as well. *)
  Definition reference_moved (r r' : TV) : Prop :=
    (10000000000 <= vget r 0 /\ 10000000000 <= vget r' 0) \/
    (vget r 0 < 10000000000 /\ vget r' 0 < 10000000000 /\ r' = move r).
  (** The parameters [p] with another reference point and other obstacles. *)
  Definition with_scene (p : Par R) (r : TV) (os : list (Obj R)) : Par R :=
    {| spline := spline p; end_frame := end_frame p; use_pbc := use_pbc p; change_pos := change_pos p; gravity_special := gravity_special p;
       save_sim := save_sim p; save_grid := save_grid p; use_mibf := use_mibf p; use_musl := use_musl p;
       grid_ref := r; gravity0 := gravity0 p; min_dt := min_dt p; fps := fps p; cfl := cfl p; cfl_elastic := cfl_elastic p;
       flip_ratio := flip_ratio p; rho := rho p; gravity_time := gravity_time p; Lx := Lx p; Ly := Ly p; Lz := Lz p;
       particle_mass := particle_mass p; particle_volume := particle_volume p; dx := dx p;
       elastic_model := elastic_model p; plastic_model := plastic_model p; hardening_law := hardening_law p;
       use_pradhana := use_pradhana p; young := young p; nu := nu p; stress_tolerance := stress_tolerance p; xi := xi p;
       q_max := q_max p; q_min := q_min p; p_min := p_min p; Mfric := Mfric p; q_cohesion := q_cohesion p;
       visc_exponent := visc_exponent p; visc_time := visc_time p; use_dl := use_dl p; beta := beta p; p0 := p0 p;
       rho_s := rho_s p; grain_diameter := grain_diameter p; I_ref := I_ref p; mu_1 := mu_1 p; mu_2 := mu_2 p;
       q_prefac := q_prefac p; objects := os |}.
  (** Parameters [p'] describe the scene of [p] moved by [a]. *)
  Definition scene_moved (p p' : Par R) : Prop :=
    p' = with_scene p (grid_ref p') (objects p') /\ reference_moved (grid_ref p) (grid_ref p') /\ Forall2 obstacle_moved (objects p) (objects p').
End Shift.

(** The outcome of a computation with its result transformed; undefined behaviour stays undefined behaviour. *)
Definition outcome {X Y} (f : X -> Y) (r : res X) : res Y := match r with Ok x => Ok (f x) | UB => UB | NoFuel => NoFuel end.
