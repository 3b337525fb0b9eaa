(** * SpecForceF: stresses, gravity and time step as ordinary double-precision numbers. *)
From Coq Require Import ZArith Reals List Bool Floats.SpecFloat Permutation.
From Flocq Require Import Core.
From Verif Require Import Num NumF Tools Lin Types Remesh Transfer Spec SpecF.
Import ListNotations.
Local Open Scope R_scope.

(** Between 2^-100 and 2^100 (about 1e-30 to 1e30). *)
Definition ordinary (x : R) : Prop := bpow radix2 (-100) <= x <= bpow radix2 100.

Section SpecForceF.
  Context {G : Geo F}.
  (** Every stress component is at most [T], every gravity component at most [g]; these bounds, the spacing, the volume and
      the mass of a particle and the time step are ordinary numbers. *)
  Record forces_okF (T g : R) (p : Par F) (P : Particles F) (dt : F) (grav : TV) : Prop := {
    fo_T : ordinary T; fo_g : ordinary g; fo_h : ordinary (fval (dx p));
    fo_vol : ffin (particle_volume p) /\ ordinary (fval (particle_volume p));
    fo_mass : ffin (particle_mass p) /\ ordinary (fval (particle_mass p));
    fo_dt : ffin dt /\ ordinary (fval dt);
    fo_tau : forall tau k l, In tau (p_tau P) -> (k < dim)%nat -> (l < dim)%nat -> ffin (mget tau k l) /\ Rabs (fval (mget tau k l)) <= T;
    fo_grav : forall k, (k < dim)%nat -> ffin (vget grav k) /\ Rabs (fval (vget grav k)) <= g
  }.
  (** The largest nodal velocity after the forces have acted: the factor 10^26 is what a node with weights near the threshold
      1e-25 can gain. *)
  Definition speed_after (V T g : R) (p : Par F) (dt : F) : R :=
    36 * V + 2 * (fval dt * g) + 10 ^ 26 * (fval dt * fval (particle_volume p) * T / (fval (particle_mass p) * fval (dx p))).
  Variable L : Libm.
  Hint Extern 0 (Num F) => exact (NumF L) : typeclass_instances.
  (** Whatever the threads do in the transfer and in whatever order the nodes are updated, both succeed without objects and
      plates; every nodal velocity is then finite and at most [speed_after]. *)
  Definition after_forces_okF (V T g : R) (p : Par F) (axes : list (Axis F)) (P : Particles F) (n : nat) (dt : F) (grav : TV) : Prop :=
    forall sched order, thread_schedule sched n -> INR (n * Nat.pow 4 dim + length sched) <= bpow radix2 43 ->
    Permutation order (seq 0 (length (resizeGrid axes))) ->
    exists nodes nodes', p2g p axes P sched (resizeGrid axes) = Ok nodes /\ euler p [] dt grav axes order nodes = Ok nodes' /\
      length nodes' = length (resizeGrid axes) /\
      forall nd k, In nd nodes' -> (k < dim)%nat -> ffin (vget (nd_v nd) k) /\ Rabs (fval (vget (nd_v nd) k)) <= speed_after V T g p dt.
  (** The same with plates. *)
  Definition after_forces_plates_okF (V T g : R) (p : Par F) (plates : list (Plate F)) (axes : list (Axis F)) (P : Particles F) (n : nat) (dt : F) (grav : TV) : Prop :=
    forall sched order, thread_schedule sched n -> INR (n * Nat.pow 4 dim + length sched) <= bpow radix2 43 ->
    Permutation order (seq 0 (length (resizeGrid axes))) ->
    exists nodes nodes', p2g p axes P sched (resizeGrid axes) = Ok nodes /\ euler p plates dt grav axes order nodes = Ok nodes' /\
      length nodes' = length (resizeGrid axes) /\
      forall nd k, In nd nodes' -> (k < dim)%nat -> ffin (vget (nd_v nd) k) /\ Rabs (fval (vget (nd_v nd) k)) <= speed_after V T g p dt.
End SpecForceF.
