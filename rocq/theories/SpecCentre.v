(** * SpecCentre: the centre of mass of a body, and a point mass under gravity. *)
From Coq Require Import Reals ZArith List Bool.
From Verif Require Import Num NumR Tools Lin Types Transfer Step Spec SpecStep SpecMech SpecMpm SpecBalance.
Import ListNotations.
Local Open Scope R_scope.

Section SpecCentre.
  Context {G : Geo R}.
  (** All particles have the same mass. *)
  Definition centre (P : Particles R) (k : nat) : R := Rsum (fun x => vget x k) (p_x P) / INR (length (p_x P)).
  Definition mean_velocity (P : Particles R) (k : nat) : R := Rsum (fun v => vget v k) (p_v P) / INR (length (p_x P)).
End SpecCentre.

(** One coordinate of a point mass after time steps [(dt, g)] (symplectic Euler: first the velocity, then
    the position with the new velocity). *)
Fixpoint projectile (x v : R) (steps : list (R * R)) : R * R :=
  match steps with
  | [] => (x, v)
  | (dt, g) :: r => let v' := v + dt * g in projectile (x + dt * v') v' r
  end.
