(** * SpecInside: particles that are not turned inside out. *)
From Coq Require Import Reals ZArith List Bool.
From Verif Require Import Num NumR Tools Lin Types Transfer Plastic Step Spec SpecStep SpecMech.
Import ListNotations.
Local Open Scope R_scope.

Section SpecInside.
  Context {G : Geo R}.
  Variable svd : TM -> TM * TV * TM.
  Variable uabs : R -> R.

  (** No particle is turned inside out or flattened: every deformation gradient has positive determinant. *)
  Definition right_way_round (s : St R) : Prop := forall F, In F (p_F (s_p s)) -> 0 < mdet F.

  (** The nodal velocities of state [s1], the end of a step, are gentle for its time step: up to a common
      velocity [u] (zero with linear splines), over the time step no node moves by more than
      dx / (2 dim) in any direction. *)
  Definition gentle (p : Par R) (s1 : St R) : Prop :=
    exists (u : TV) c, (spline p = Deg1 -> u = vzero) /\ 0 <= c /\ 2 * INR dim * c * s_dt s1 < dx p /\
      forall nd k, In nd (s_nodes s1) -> (k < dim)%nat -> Rabs (vget (nd_v nd) k - vget u k) <= c.

  (** Steps of the main loop (any schedules) all of which are gentle. *)
  Inductive gentle_run (af : nat) (p : Par R) : St R -> St R -> Prop :=
  | gentle_nil : forall s, gentle_run af p s s
  | gentle_step : forall sc s0 s1 s2, valid_sched sc -> advanceStep svd uabs af p sc s0 = Ok s1 ->
      GridOk p (s_axes s1) -> gentle p s1 -> gentle_run af p (tick p s1) s2 -> gentle_run af p s0 s2.
End SpecInside.
