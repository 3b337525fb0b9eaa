(** * SpecTime: output frames, and the conditions under which the clock is analysed. *)
From Coq Require Import Reals ZArith List Bool.
From Verif Require Import Num NumR Tools Lin Types Objects Transfer Step.
Import ListNotations.
Local Open Scope R_scope.

(** The particle files written, as states, in order. *)
Definition particle_files {A : Type} {G : Geo A} (ev : list (Ev A)) : list (St A) :=
  flat_map (fun e => match e with EvParticles s => [s] | _ => [] end) ev.

(** The grid files written, as the states they are written from, in order. *)
Definition grid_files {A : Type} {G : Geo A} (ev : list (Ev A)) : list (St A) :=
  flat_map (fun e => match e with EvGrid s => [s] | _ => [] end) ev.

Section SpecTime.
  Context {G : Geo R}.

  (** Frames 0,1,...,n. *)
  Definition frames_upto (n : Z) : list Z := map Z.of_nat (seq 0 (Z.to_nat (n + 1))).

  (** Sensible output settings: positive rate and smallest step, and frames further apart than
      1.1 smallest steps. *)
  Definition clock_ok (p : Par R) : Prop := 0 < fps p /\ 0 < min_dt p /\ 11/10 * min_dt p <= 1 / fps p.

  (** Custom objects (user subclasses, VDB level sets) do not themselves run forever. *)
  Definition objects_return (p : Par R) : Prop :=
    forall o, In o (objects p) -> forall X, inside (ob_shape o) X <> NoFuel /\ normal (ob_shape o) X <> NoFuel.
End SpecTime.
