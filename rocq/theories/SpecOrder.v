(** * SpecOrder: the same particles in another order. *)
From Coq Require Import Reals ZArith List Bool.
From Verif Require Import Num NumR Tools Lin Types Transfer Plastic Step Spec.
Import ListNotations.
Local Open Scope R_scope.

(** The entries of a list in the order given by a list of positions. *)
Definition reorder {X} (pi : list nat) (l : list X) : list X :=
  flat_map (fun i => match nth_error l i with Some x => [x] | None => [] end) pi.

Section Order.
  Context {A : Type} {G : Geo A}.
  Definition reorder_particles (pi : list nat) (P : Particles A) : Particles A :=
    mkParticles (reorder pi (p_x P)) (reorder pi (p_v P)) (reorder pi (p_pic P)) (reorder pi (p_flip P))
      (reorder pi (p_hist P)) (reorder pi (p_F P)) (reorder pi (p_B P)) (reorder pi (p_tau P)).
  (** Only the particles are moved; grid, clock, gravity and plates are those of [s]. *)
  Definition reorder_state (pi : list nat) (s : St A) : St A :=
    mkSt (reorder_particles pi (s_p s)) (s_Np s) (s_nadd s) (s_axes s) (s_nodes s) (s_mesh s) (s_time s) (s_frame s) (s_step s)
      (s_dt s) (s_grav s) (s_gravf s) (s_plates s) (s_exit s).
  Definition reorder_output (pi : list nat) (e : Ev A) : Ev A :=
    match e with EvParticles s => EvParticles (reorder_state pi s) | EvGrid s => EvGrid (reorder_state pi s) | e => e end.
End Order.

Section Runs.
  Context {G : Geo R}.
  Variable svd : TM -> TM * TV * TM.
  Variable uabs : R -> R.
  (** States at the start of the steps of a simulation: the loop goes on as long as no step raised the
      error flag and the last frame was not reached. *)
  Inductive reached (af : nat) (p : Par R) (sch : nat -> Sched) (s0 : St R) : nat -> St R -> Prop :=
  | reached_start : reached af p sch s0 0 s0
  | reached_step : forall k s s1, reached af p sch s0 k s -> (s_frame s < end_frame p)%Z -> advanceStep svd uabs af p (sch k) s = Ok s1 ->
      s_exit s1 = false -> at_end p (tick p s1) = false -> reached af p sch s0 (S k) (tick p s1).
  (** All grids of the simulation are lattices whose node numbers fit in 32 bits. *)
  Definition grids_fit (af : nat) (p : Par R) (sch : nat -> Sched) (s0 : St R) : Prop :=
    forall k s s1, reached af p sch s0 k s -> (s_frame s < end_frame p)%Z -> advanceStep svd uabs af p (sch k) s = Ok s1 -> GridOk p (s_axes s1).
End Runs.
