(** * Step: updateDt, advanceStep, moveObjects and simulate.
    /repo/src/simulation/{update_dt,simulation}.cpp *)
From Coq Require Import ZArith List Bool.
From Verif Require Import Num Tools Lin Types Remesh Objects Transfer Rma Plastic Pbc.
Import ListNotations.
Local Open Scope num_scope.

(** Execution orders of the parallel loops of one step, as functions of the number of
    iterations. *)
Record Sched := mkSched {
  sc_pbc : nat -> list nat;
  sc_p2g : nat -> list (list nat);
  sc_euler : nat -> list nat;
  sc_g2p : nat -> list nat;
  sc_musl1 : nat -> list nat;
  sc_musl : nat -> list (list nat);
  sc_def : nat -> list nat;
  sc_pos : nat -> list nat
}.

Section Step.
  Context {A : Type} {NA : Num A} {G : Geo A}.
  Variable svd : TM -> TM * TV * TM.
  Variable uabs : A -> A.

  (** update_dt.cpp:7-12: the first particle of maximal squaredNorm, then its norm. *)
  Definition max_speed (vs : list TV) : res A :=
    match vs with
    | [] => UB
    | v :: r => Ok (vnorm (fold_left (fun m w => if vsqnorm m <? vsqnorm w then w else m) r v))
    end.

  (** update_dt.cpp:22-37 *)
  Definition dt_of (p : Par A) (speed time : A) (frame : Z) : A :=
    let dt0 := if nabs speed >? nofQ 1 10000000000
               then cmin (cfl p * dx p / speed) (dt_max p) else dt_max p in
    let dt1 := cmin dt0 (frame_dt p * #(frame + 1) - time) in
    let dt2 := cmin dt1 (final_time p - time) in
    cmax dt2 (min_dt p).

  (** update_dt.cpp:46-63 *)
  Definition gravity_of (p : Par A) (time : A) (gfinal gcur : TV) : TV :=
    if gravity_special p then
      if time <? gravity_time p then vdivs (vscale gfinal time) (gravity_time p) else gfinal
    else gcur.

  Definition with_p (s : St A) (P : Particles A) : St A :=
    mkSt P (s_Np s) (s_nadd s) (s_axes s) (s_nodes s) (s_mesh s) (s_time s) (s_frame s) (s_step s)
         (s_dt s) (s_grav s) (s_gravf s) (s_plates s) (s_exit s).
  Definition with_pn (s : St A) (P : Particles A) (n nadd : Z) : St A :=
    mkSt P n nadd (s_axes s) (s_nodes s) (s_mesh s) (s_time s) (s_frame s) (s_step s)
         (s_dt s) (s_grav s) (s_gravf s) (s_plates s) (s_exit s).
  Definition with_nodes (s : St A) (g : list (Node A)) : St A :=
    mkSt (s_p s) (s_Np s) (s_nadd s) (s_axes s) g (s_mesh s) (s_time s) (s_frame s) (s_step s)
         (s_dt s) (s_grav s) (s_gravf s) (s_plates s) (s_exit s).
  Definition with_grid (s : St A) (ax : list (Axis A)) (ms : list (MeshAx A)) : St A :=
    mkSt (s_p s) (s_Np s) (s_nadd s) ax (s_nodes s) ms (s_time s) (s_frame s) (s_step s)
         (s_dt s) (s_grav s) (s_gravf s) (s_plates s) (s_exit s).
  Definition with_dt (s : St A) (dt : A) (grav : TV) : St A :=
    mkSt (s_p s) (s_Np s) (s_nadd s) (s_axes s) (s_nodes s) (s_mesh s) (s_time s) (s_frame s)
         (s_step s) dt grav (s_gravf s) (s_plates s) (s_exit s).
  Definition with_plates (s : St A) (pl : list (Plate A)) : St A :=
    mkSt (s_p s) (s_Np s) (s_nadd s) (s_axes s) (s_nodes s) (s_mesh s) (s_time s) (s_frame s)
         (s_step s) (s_dt s) (s_grav s) (s_gravf s) pl (s_exit s).
  Definition with_exit (s : St A) (e : bool) : St A :=
    mkSt (s_p s) (s_Np s) (s_nadd s) (s_axes s) (s_nodes s) (s_mesh s) (s_time s) (s_frame s)
         (s_step s) (s_dt s) (s_grav s) (s_gravf s) (s_plates s) (s_exit s || e).
  Definition with_clock (s : St A) (time : A) (frame step : Z) : St A :=
    mkSt (s_p s) (s_Np s) (s_nadd s) (s_axes s) (s_nodes s) (s_mesh s) time frame step
         (s_dt s) (s_grav s) (s_gravf s) (s_plates s) (s_exit s).

  (** update_dt.cpp:5-67 *)
  Definition updateDt (p : Par A) (s : St A) : res (St A) :=
    sp <- max_speed (p_v (s_p s)) ;;
    Ok (with_dt s (dt_of p sp (s_time s) (s_frame s))
                (gravity_of p (s_time s) (s_gravf s) (s_grav s))).

  (** simulation.cpp:216-226.  [af]: fuel for the arange loops. *)
  Definition remesh (af : nat) (p : Par A) (s : St A) : res (St A) :=
    if use_pbc p then
      if (s_step s =? 0)%Z then
        axes <- remeshFixed af p 4 ;; Ok (with_grid s axes (s_mesh s))
      else Ok s
    else
      if (s_step s =? 0)%Z then
        am <- remeshFixedInit af p 2 (p_x (s_p s)) ;;
        Ok (with_grid s (map fst am) (map snd am))
      else
        axes <- remeshFixedCont af p (p_x (s_p s)) (s_mesh s) ;;
        Ok (with_grid s axes (s_mesh s)).

  (** simulation.cpp:228-230; pbc.cpp:81 Np = particles.x.size() *)
  Definition pbc_before (p : Par A) (sc : Sched) (s : St A) : res (St A) :=
    if use_pbc p then
      r <- pbcAdd p 4 (sc_pbc sc (Z.to_nat (s_Np s))) (s_p s) ;;
      Ok (with_pn s (fst r) (wrapu (Z.of_nat (length (p_x (fst r))))) (snd r))
    else Ok s.
  (** simulation.cpp:247-249; pbc.cpp:100 *)
  Definition pbc_after (p : Par A) (s : St A) : res (St A) :=
    if use_pbc p then
      P <- pbcDel (s_nadd s) (s_p s) ;;
      Ok (with_pn s P (wrapu (Z.of_nat (length (p_x P)))) (s_nadd s))
    else Ok s.

  Definition npn (s : St A) : nat := Z.to_nat (s_Np s).
  Definition plast := plasticity svd uabs.

  (** simulation.cpp:256-262 *)
  Definition musl_part (p : Par A) (sc : Sched) (s : St A) : res (St A) :=
    if use_musl p then
      r <- musl_velocities p (sc_musl1 sc (npn s)) (s_p s) ;;
      g <- musl_grid p (s_axes s) (fst r) (sc_musl sc (npn s)) (s_nodes s) ;;
      d <- deformationUpdate plast p (s_axes s) g (s_dt s) (sc_def sc (npn s)) (fst r) ;;
      Ok (with_exit (with_nodes (with_p s (fst d)) g) (fst (snd d)))
    else Ok s.

  (** simulation.cpp:213-268 *)
  Definition advanceStep (af : nat) (p : Par A) (sc : Sched) (s0 : St A) : res (St A) :=
    s1 <- updateDt p s0 ;;
    s2 <- remesh af p s1 ;;
    s3 <- pbc_before p sc s2 ;;
    let nodes0 := resizeGrid (s_axes s3) in
    g1 <- p2g p (s_axes s3) (s_p s3) (sc_p2g sc (npn s3)) nodes0 ;;
    g2 <- euler p (s_plates s3) (s_dt s3) (s_grav s3) (s_axes s3)
                (sc_euler sc (Z.to_nat (grid_nodes (s_axes s3)))) g1 ;;
    let s4 := with_nodes s3 g2 in
    s5 <- pbc_after p s4 ;;
    r <- g2p plast p (s_axes s5) (s_nodes s5) (s_dt s5) (sc_g2p sc (npn s5)) (s_p s5) ;;
    let s6 := with_exit (with_p s5 (fst r)) (fst (snd r)) in
    s7 <- musl_part p sc s6 ;;
    q <- positionUpdate p (s_dt s7) (sc_pos sc (npn s7)) (s_p s7) ;;
    let s8 := with_p s7 (fst q) in
    Ok (with_plates s8 (map (plate_move (s_dt s8) (frame_dt p) (s_time s8)) (s_plates s8))).

  (** ** simulate() *)

  (** Files written by simulate(), with the state they are written from. *)
  Inductive Ev :=
  | EvInfo                          (* saveInfo *)
  | EvParticles (s : St A)          (* saveParticleData *)
  | EvGrid (s : St A)               (* saveGridData *)
  | EvTiming (steps : Z).           (* saveTiming *)
  Inductive Stop := NotInitialised | BadModel | SetupFailed | Aborted | Finished.

  Definition save_frame (p : Par A) (s : St A) : list Ev :=
    if save_sim p then
      EvParticles s :: (if save_grid p then [EvGrid s] else [])
    else [].

  (** simulation.cpp:171-182: time, step and frame counters after a step. *)
  Definition tick (p : Par A) (s : St A) : St A :=
    let time := s_time s + s_dt s in
    let step := wrapu (s_step s + 1) in
    if frame_dt p * #(s_frame s + 1) - time <? min_dt p * (11//10)
    then with_clock s time (s_frame s + 1) step
    else with_clock s time (s_frame s) step.
  (** simulation.cpp:184 *)
  Definition at_end (p : Par A) (s : St A) : bool :=
    (nabs (final_time p - s_time s) <? min_dt p * (11//10)) || (final_time p <? s_time s).

  (** simulation.cpp:161-194.  [fuel]: number of steps; the events are returned in order. *)
  Fixpoint sim_loop (fuel af : nat) (p : Par A) (sch : nat -> Sched) (k : nat) (s : St A)
    : res (Stop * St A * list Ev) :=
    if (s_frame s <? end_frame p)%Z then
      match fuel with
      | O => NoFuel
      | S fu =>
          s1 <- advanceStep af p (sch k) s ;;
          if s_exit s1 then Ok (Aborted, s1, [])
          else
            let s2 := tick p s1 in
            let ev1 := if (s_frame s2 =? s_frame s1)%Z then [] else save_frame p s2 in
            if at_end p s2 then Ok (Finished, s2, ev1 ++ save_frame p s2)
            else
              r <- sim_loop fu af p sch (S k) s2 ;;
              Ok (fst (fst r), snd (fst r), ev1 ++ snd r)
      end
    else Ok (Finished, s, []).

  (** simulation.cpp:133-140 *)
  Definition fill_muI (p : Par A) (P : Particles A) : Particles A :=
    if use_mibf p then
      let m := match plastic_model p with DPMui | MCCMui => mu_1 p | _ => Mfric p end in
      mkParticles (p_x P) (p_v P) (p_pic P) (p_flip P)
                  (map (fun h => mkHist (h_dev h) (h_vol h) (h_prad h) (h_dg h) (h_visc h) m)
                       (p_hist P)) (p_F P) (p_B P) (p_tau P)
    else P.

  (** simulation.cpp:110-151: time and frame are reset, the step counter is not. *)
  Definition sim_start (p : Par A) (s : St A) : St A :=
    mkSt (fill_muI p (s_p s)) (s_Np s) (s_nadd s) (s_axes s) (s_nodes s) (s_mesh s)
         #0 0 (s_step s) (s_dt s) (s_grav s) (s_grav s) (s_plates s) (s_exit s).

  Definition model_ok (p : Par A) : bool :=
    match elastic_model p, plastic_model p with
    | Hencky, _ => true
    | _, NoPlasticity => true
    | _, _ => false
    end.

  (** simulation.cpp:73-207.  [init]: is_initialized; [sch k]: schedule of the k-th step. *)
  Definition simulate (fuel af : nat) (p : Par A) (init : bool) (sch : nat -> Sched) (s : St A)
    : res (Stop * St A * list Ev) :=
    if negb init then Ok (NotInitialised, s, [])
    else if negb (model_ok p) then Ok (BadModel, s, [])
    else if s_exit s then Ok (SetupFailed, s, [])
    else
      let s1 := sim_start p s in
      let ev0 := if save_sim p then [EvInfo; EvParticles s1] else [] in
      r <- sim_loop fuel af p sch 0 s1 ;;
      let '(st, s2, ev) := r in
      Ok (st, s2, ev0 ++ ev ++
            match st with Finished => if save_sim p then [EvTiming (s_step s2)] else [] | _ => [] end).

  (** A Simulation object before simulate(): constructor simulation.cpp:5-21 and the user's
      particles and plates. *)
  Definition initial_state (p : Par A) (P : Particles A) (plates : list (Plate A)) : St A :=
    mkSt P (Z.of_nat (length (p_x P))) 0 [] [] [] #0 0 0 #0 (gravity0 p) (gravity0 p) plates false.
End Step.
Arguments Ev A {G}.
