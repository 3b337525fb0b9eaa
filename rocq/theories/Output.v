(** * Output: the tables of the particle and grid files, VDB objects and samplers, initialize().
    /repo/src/simulation/{save_data,simulation}.cpp, /repo/src/objects/object_vdb.hpp,
    /repo/src/sampling/{regular_sampling_particles_vdb,sampling_particles_vdb}.hpp *)
From Coq Require Import String ZArith List Bool.
From Verif Require Import Num Tools Lin Types Remesh Objects Transfer Step Save Sampling.
Import ListNotations.
Local Open Scope num_scope.

Section Output.
  Context {A : Type} {NA : Num A} {G : Geo A}.

  (** ** Tables *)

  (** One call of tinyply's add_properties_to_element: column names, and the vector that is passed
      as raw memory, one list of values per entry. *)
  Record Col := mkCol { c_names : list string; c_rows : list (list A) }.
  Definition vrow (v : TV) : list A := map (vget v) (seq 0 dim).
  Definition vnames (a b c : string) : list string :=
    match dim with 2%nat => [a; b] | _ => [a; b; c] end.
  Definition scalars (name : string) (l : list A) : Col := mkCol [name] (map (fun x => [x]) l).

  (** save_data.cpp:9-37: pressure_vec, devstress_vec and Je_vec of size Np, filled by a parallel
      loop; [sched]: order of the iterations. *)
  Definition stress_vecs (p : Par A) (P : Particles A) (n : nat) (sched : list nat)
    : res (list A * list A * list A) :=
    foldM (fun s i =>
             let '(ps, qs, js) := s in
             let z := Z.of_nat i in
             F <- rd (p_F P) z ;; tau <- rd (p_tau P) z ;;
             ps' <- upd ps z (fun _ => save_p tau) ;;
             qs' <- upd qs z (fun _ => save_q p tau) ;;
             js' <- upd js z (fun _ => save_Je F) ;;
             Ok (ps', qs', js'))
          sched (repeat #0 n, repeat #0 n, repeat #0 n).

  (** save_data.cpp:135, 146 *)
  Definition saves_muI (p : Par A) : bool :=
    match plastic_model p with
    | DPVisc | MCCVisc => use_mibf p
    | DPMui | MCCMui => true
    | _ => false
    end.
  Definition saves_visc (p : Par A) : bool :=
    match plastic_model p with DPMui | MCCMui => true | _ => false end.

  (** save_data.cpp:46-159 *)
  Definition particle_cols (p : Par A) (P : Particles A) (n : nat) (sched : list nat)
    : res (list Col) :=
    r <- stress_vecs p P n sched ;;
    let '(ps, qs, js) := r in
    Ok ([mkCol (vnames "x" "y" "z") (map vrow (p_x P));
         mkCol (vnames "vx" "vy" "vz") (map vrow (p_v P));
         scalars "p" ps; scalars "q" qs; scalars "Je" js] ++
        match plastic_model p with
        | NoPlasticity => []
        | _ => [scalars "eps_pl_vol" (map (fun h => h_vol h) (p_hist P));
                scalars "eps_pl_dev" (map (fun h => h_dev h) (p_hist P));
                scalars "delta_gamma" (map (fun h => h_dg h) (p_hist P))] ++
               (if saves_muI p then [scalars "muI" (map (fun h => h_muI h) (p_hist P))] else []) ++
               (if saves_visc p then [scalars "viscosity" (map (fun h => h_visc h) (p_hist P))] else [])
        end).

  (** save_data.cpp:198-254 *)
  Definition grid_cols (p : Par A) (s : St A) : list Col :=
    [mkCol (vnames "x" "y" "z") (map vrow (grid_x_save (s_axes s)));
     mkCol (vnames "vx" "vy" "vz") (map (fun nd => vrow (nd_v nd)) (s_nodes s));
     scalars "mass" (map (fun nd => nd_m nd) (s_nodes s))] ++
    (if use_mibf p then [scalars "friction" (map (fun nd => nd_fr nd) (s_nodes s))] else []).

  (** file.write, save_data.cpp:163, 256: the contract of tinyply.  The table has the columns of all
      groups and as many rows as the first group has entries; every group is read at every row, and
      reading past the end of a vector is undefined. *)
  Definition table (cols : list Col) : res (list string * list (list A)) :=
    match cols with
    | [] => Ok ([], [])
    | c :: _ =>
        rows <- mapM (fun i => r <- mapM (fun c => rd (c_rows c) (Z.of_nat i)) cols ;; Ok (concat r))
                     (seq 0 (length (c_rows c))) ;;
        Ok (flat_map c_names cols, rows)
    end.
  Definition particle_table (p : Par A) (s : St A) (sched : list nat)
    : res (list string * list (list A)) :=
    cols <- particle_cols p (s_p s) (Z.to_nat (s_Np s)) sched ;; table cols.
  Definition grid_table (p : Par A) (s : St A) : res (list string * list (list A)) :=
    table (grid_cols p s).

  (** ** VDB objects *)

  (** Signed distance, gradient and bounding box as OpenVDB returns them: arbitrary functions of the
      three world coordinates.  Simplification: the conversions between float and T are part of
      these functions. *)
  Record Vdb := mkVdb { vd_phi : A -> A -> A -> A; vd_grad : A -> A -> A -> nat -> A;
                        vd_min : nat -> A; vd_max : nat -> A }.

  (** object_vdb.hpp:47-51: the missing third coordinate is zero in 2D. *)
  Definition world (X : TV) (k : nat) : A := if Nat.ltb k dim then vget X k else #0.
  (** object_vdb.hpp:45-59 *)
  Definition vdb_inside (o : Vdb) (X : TV) : bool := vd_phi o (world X 0) (world X 1) (world X 2) <=? #0.
  (** object_vdb.hpp:61-79 *)
  Definition vdb_normal (o : Vdb) (X : TV) : TV :=
    let r := vtab (vd_grad o (world X 0) (world X 1) (world X 2)) in
    let n := vnorm r in
    if negb (n =? #0) then vdivs r n else vzero.
  Definition vdb_shape (o : Vdb) : Shape A := Custom (vdb_inside o) (fun X => Ok (vdb_normal o X)).
  (** object_vdb.hpp:81-93 *)
  Definition vdb_min (o : Vdb) : TV := vtab (vd_min o).
  Definition vdb_max (o : Vdb) : TV := vtab (vd_max o).

  (** ** VDB samplers *)

  (** What the samplers set, including the box. *)
  Record SampledV := mkSampledV { sv_s : Sampled A; sv_L : TV }.

  (** regular_sampling_particles_vdb.hpp:30-47, 67-83: points of the bounding box. *)
  Definition vdb_points (s : A) (mn L : TV) : res (list TV) :=
    let co := fun k i => vget mn k + (#(Z.of_nat i) + 1//2) * s in
    nx <- to_int (vget L 0 / s) ;;
    ny <- to_int (vget L 1 / s) ;;
    match dim with
    | 2%nat =>
        Ok (flat_map (fun i => map (fun j => vset (vset vzero 0 (co 0%nat i)) 1 (co 1%nat j))
                                   (seq 0 (Z.to_nat ny))) (seq 0 (Z.to_nat nx)))
    | _ =>
        nz <- to_int (vget L 2 / s) ;;
        Ok (flat_map (fun i => flat_map (fun j => map (fun k =>
              vset (vset (vset vzero 0 (co 0%nat i)) 1 (co 1%nat j)) 2 (co 2%nat k))
              (seq 0 (Z.to_nat nz))) (seq 0 (Z.to_nat ny))) (seq 0 (Z.to_nat nx)))
    end.
  (** regular_sampling_particles_vdb.hpp:11-95 *)
  Definition regularSampleVdb (p : Par A) (o : Vdb) (ppc : A) : res SampledV :=
    let s := spacing p ppc in
    let L := vsub (vdb_max o) (vdb_min o) in
    pts <- vdb_points s (vdb_min o) L ;;
    let vol := match dim with 2%nat => s * s | _ => s * s * s end in
    Ok (mkSampledV (mkSampled (dx p) vol (rho p * vol) (place (filter (vdb_inside o) pts))) L).

  (** sampling_particles_vdb.hpp:12-84.  [samples]: what thinks::PoissonDiskSampling returned. *)
  Definition sampleVdb (p : Par A) (o : Vdb) (ppc : A) (samples : list TV) : SampledV :=
    let L := vsub (vdb_max o) (vdb_min o) in
    let n := #(Z.of_nat (length samples)) in
    let d := match dim with
             | 2%nat => nsqrt (ppc / n * vget L 0 * vget L 1)
             | _ => ncbrt (ppc / n * vget L 0 * vget L 1 * vget L 2)
             end in
    let vol := match dim with 2%nat => d * d / ppc | _ => d * d * d / ppc end in
    mkSampledV (mkSampled d vol (rho p * vol) (place (filter (vdb_inside o) samples))) L.

  (** ** initialize() *)

  (** The part of the Simulation object initialize() touches: save_sim, is_initialized, exit. *)
  Record Ini := mkIni { i_save : bool; i_init : bool; i_exit : bool }.
  (** simulation.cpp:5-21 and the default of save_sim, simulation.hpp:46: a new object. *)
  Definition new_sim : Ini := mkIni true false false.
  (** simulation.cpp:24-71.  [copied]: whether the input file could be copied to the output
      directory. *)
  Definition initialize (save copied : bool) (i : Ini) : Ini :=
    mkIni save true (i_exit i || (save && negb copied)).
  (** A call of simulate() on that object: the members are read at :75, 110, 153 ff. *)
  Definition set_save (p : Par A) (b : bool) : Par A :=
    mkPar (spline p) (end_frame p) (use_pbc p) (change_pos p) (gravity_special p) b (save_grid p)
      (use_mibf p) (use_musl p) (grid_ref p) (gravity0 p) (min_dt p) (fps p) (cfl p) (cfl_elastic p)
      (flip_ratio p) (rho p) (gravity_time p) (Lx p) (Ly p) (Lz p) (particle_mass p)
      (particle_volume p) (dx p) (elastic_model p) (plastic_model p) (hardening_law p)
      (use_pradhana p) (young p) (nu p) (stress_tolerance p) (xi p) (q_max p) (q_min p) (p_min p)
      (Mfric p) (q_cohesion p) (visc_exponent p) (visc_time p) (use_dl p) (beta p) (p0 p) (rho_s p)
      (grain_diameter p) (I_ref p) (mu_1 p) (mu_2 p) (q_prefac p) (objects p).
  Definition run_sim (svd : TM -> TM * TV * TM) (uabs : A -> A) (fuel af : nat) (p : Par A) (i : Ini)
    (sch : nat -> Sched) (s : St A) : res (Stop * St A * list (Ev A)) :=
    simulate svd uabs fuel af (set_save p (i_save i)) (i_init i) sch
             (with_exit s (i_exit i)).
End Output.
Arguments Col A : clear implicits.
Arguments Vdb A : clear implicits.
Arguments SampledV A {G}.
