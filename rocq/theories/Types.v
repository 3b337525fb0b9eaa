(** * Types: the data of the simulation.
    Simulation (simulation.hpp:23-228), Particles and Grid (data_structures.hpp:8-65),
    ObjectGeneral and its subclasses (objects/*.hpp), ObjectPlate (objects/object_plate.hpp). *)
From Coq Require Import ZArith List Bool.
From Verif Require Import Num Tools Lin.
Import ListNotations.
Local Open Scope num_scope.

Section Types.
  Context {A : Type} {NA : Num A} {G : Geo A}.

  (** Scalar history variables of one particle, data_structures.hpp:33-38.  These six arrays are
      only ever resized together (constructor), so they are modelled as one array of records. *)
  Record Hist := mkHist {
    h_dev : A;      (* eps_pl_dev *)
    h_vol : A;      (* eps_pl_vol *)
    h_prad : A;     (* eps_pl_vol_pradhana *)
    h_dg : A;       (* delta_gamma *)
    h_visc : A;     (* viscosity *)
    h_muI : A       (* muI *)
  }.

  (** data_structures.hpp:8-45, structure of arrays. *)
  Record Particles := mkParticles {
    p_x : list TV; p_v : list TV; p_pic : list TV; p_flip : list TV;
    p_hist : list Hist;
    p_F : list TM; p_B : list TM; p_tau : list TM
  }.

  (** One axis of the grid: the node coordinates (grid.x / grid.y / grid.z) and the cached first
      coordinate (grid.xc / grid.yc / grid.zc), data_structures.hpp:47-65. *)
  Record Axis := mkAxis { ax_co : list A; ax_c : A }.

  (** Nodal data.  Simplification: the arrays grid.v, flip, force, mass, friction (which
      resizeGrid, remesh.cpp:5-12, gives the same length) are one array of records; grid.friction
      is only used when use_mibf, as in the code. *)
  Record Node := mkNode { nd_m : A; nd_v : TV; nd_flip : TV; nd_f : TV; nd_fr : A }.

  (** The *_init members of one axis, simulation.hpp:209-227. *)
  Record MeshAx := mkMeshAx { ma_min : A; ma_max : A; ma_low : A; ma_high : A }.

  (** General objects: the analytic classes and, as [Custom], any other subclass (this includes
      ObjectVdb, whose level set comes from OpenVDB: inside and normal are arbitrary functions). *)
  Inductive Shape :=
  | Ground (y_ground : A)
  | Curve
  | Bump
  | Ramp
  | Gate (height : A)
  | Silo (cut : A)
  | Custom (ins : TV -> bool) (nrm : TV -> res TV).
  Record Obj := mkObj { ob_shape : Shape; ob_bc : BC; ob_fric : A }.

  (** objects/object_plate.hpp:164-186 *)
  Record Plate := mkPlate {
    pl_pos : A; pl_type : PlateType; pl_bc : BC; pl_fric : A;
    pl_lower : A; pl_upper : A;
    pl_v : TV;                     (* vx_object, vy_object(, vz_object) *)
    pl_v0 : TV;                    (* v*_object_original *)
    pl_vmin : A; pl_load : A
  }.

  (** User-settable parameters of Simulation, simulation.hpp:36-114. *)
  Record Par := mkPar {
    spline : Spline;
    end_frame : Z;
    use_pbc : bool; change_pos : bool; gravity_special : bool;
    save_sim : bool; save_grid : bool; use_mibf : bool; use_musl : bool;
    grid_ref : TV; gravity0 : TV;
    min_dt : A; fps : A; cfl : A; cfl_elastic : A; flip_ratio : A; rho : A; gravity_time : A;
    Lx : A; Ly : A; Lz : A;
    particle_mass : A; particle_volume : A; dx : A;
    elastic_model : ElasticModel; plastic_model : PlasticModel; hardening_law : HardeningLaw;
    use_pradhana : bool; young : A; nu : A; stress_tolerance : A; xi : A;
    q_max : A; q_min : A; p_min : A;
    Mfric : A; q_cohesion : A;
    visc_exponent : A; visc_time : A; use_dl : bool;
    beta : A; p0 : A;
    rho_s : A; grain_diameter : A; I_ref : A; mu_1 : A; mu_2 : A;
    q_prefac : A;
    objects : list Obj
  }.

  (** Quantities simulate() computes once from the parameters, simulation.cpp:97-151. *)
  Definition dimA : A := #(Z.of_nat dim).
  Definition apicDinverse (p : Par) : A :=                       (* :97-108 *)
    match spline p with
    | Deg3 => #3 / (dx p * dx p)
    | Deg2 => #4 / (dx p * dx p)
    | Deg1 => #0
    end.
  Definition lambda (p : Par) : A :=                             (* :113 *)
    nu p * young p / ((#1 + nu p) * (#1 - #2 * nu p)).
  Definition mu (p : Par) : A := young p / (#2 * (#1 + nu p)).   (* :114 *)
  Definition bulkK (p : Par) : A := lambda p + #2 * mu p / dimA. (* :115, 283-285 *)
  Definition wave_speed (p : Par) : A := nsqrt (young p / rho p).     (* :116 *)
  Definition dt_max (p : Par) : A := cfl_elastic p * dx p / wave_speed p.   (* :118 *)
  Definition frame_dt (p : Par) : A := #1 / fps p.               (* :120 *)
  Definition one_over_dx (p : Par) : A := #1 / dx p.             (* :124 *)
  Definition d_prefac (p : Par) : A := #1 / q_prefac p.          (* :127 *)
  Definition e_mu_prefac (p : Par) : A := #2 * q_prefac p * mu p.     (* :128 *)
  Definition f_mu_prefac (p : Par) : A := #2 * q_prefac p * q_prefac p * mu p.   (* :129 *)
  Definition fac_Q (p : Par) : A := I_ref p / (grain_diameter p * nsqrt (rho_s p)).  (* :131 *)
  Definition final_time (p : Par) : A := #(end_frame p) * frame_dt p.  (* :151 *)

  (** Mutable state of Simulation. *)
  Record St := mkSt {
    s_p : Particles;
    s_Np : Z;
    s_nadd : Z;                    (* num_add_pbc_particles *)
    s_axes : list Axis;            (* x, y(, z) *)
    s_nodes : list Node;
    s_mesh : list MeshAx;
    s_time : A; s_frame : Z; s_step : Z; s_dt : A;
    s_grav : TV; s_gravf : TV;
    s_plates : list Plate;
    s_exit : bool
  }.
End Types.
Arguments Hist A : clear implicits.
Arguments Particles A {G}.
Arguments Axis A : clear implicits.
Arguments Node A {G}.
Arguments MeshAx A : clear implicits.
Arguments Shape A {G}.
Arguments Obj A {G}.
Arguments Plate A {G}.
Arguments Par A {G}.
Arguments St A {G}.
