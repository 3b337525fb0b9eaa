(** * SpecMassF: what the grid should receive, in terms of the double-precision weights of the particles. *)
From Coq Require Import ZArith Reals List Bool Floats.SpecFloat.
From Flocq Require Import Core.
From Verif Require Import Num NumF Tools Lin Types Remesh Transfer Spec SpecF.
Import ListNotations.
Local Open Scope R_scope.

Section SpecMassF.
  Variable L : Libm.
  Hint Extern 0 (Num F) => exact (NumF L) : typeclass_instances.
  Context {G : Geo F}.

  (** The exact sum, over all particles, of the (double-precision) weights above 1e-25 that they have at node [j]. *)
  Definition weight_atF (p : Par F) (axes : list (Axis F)) (xs : list TV) (j : nat) : R :=
    Rsum (fun x => match stencil base_p2g p axes x with
                   | Ok items => Rsum (fun it => if (it_idx it =? Z.of_nat j)%Z && nltb (nofQ 1 10000000000000000000000000) (it_w it)
                                                 then fval (it_w it) else 0) items
                   | _ => 0 end) xs.

  (** The particle mass is an ordinary number. *)
  Definition mass_okF (p : Par F) : Prop :=
    ffin (particle_mass p) /\ bpow radix2 (-900) <= fval (particle_mass p) <= bpow radix2 900.

  (** Whatever the threads do, the transfer to the grid succeeds, every nodal mass is finite, not negative, and equal to
      the particle mass times the weights at the node, up to a relative error of 2^-52 for each of the [4^dim n] weights,
      each of the threads and two more. *)
  Definition nodal_masses_okF (p : Par F) (axes : list (Axis F)) (P : Particles F) (n : nat) : Prop :=
    forall sched, thread_schedule sched n -> let c := (n * Nat.pow 4 dim + length sched)%nat in INR c <= bpow radix2 51 ->
    exists nodes, p2g p axes P sched (resizeGrid axes) = Ok nodes /\ length nodes = length (resizeGrid axes) /\
      forall j nd, nth_error nodes j = Some nd -> let m := fval (particle_mass p) * weight_atF p axes (p_x P) j in
        ffin (nd_m nd) /\ 0 <= fval (nd_m nd) /\ Rabs (fval (nd_m nd) - m) <= bpow radix2 (-52) * (INR c + 2) * m.

  (** The nodal masses add up (in exact arithmetic) to the mass of the particles, up to [e] per particle. *)
  Definition total_mass_okF (p : Par F) (n : nat) (nodes : list (Node F)) (e : R) : Prop :=
    let m := INR n * fval (particle_mass p) in Rabs (Rsum (fun nd => fval (nd_m nd)) nodes - m) <= e * m.
End SpecMassF.

Section SpecVelF.
  Variable L : Libm.
  Hint Extern 0 (Num F) => exact (NumF L) : typeclass_instances.
  Context {G : Geo F}.
  (** Every component of every particle velocity is at most [V]; with APIC (negative FLIP ratio) the affine part
      is at most [V] times the spacing.  [V] and the spacing are ordinary numbers. *)
  Record speeds_okF (V : R) (p : Par F) (P : Particles F) : Prop := {
    sp_V : bpow radix2 (-300) <= V <= bpow radix2 300;
    sp_dx : bpow radix2 (-300) <= fval (dx p) <= bpow radix2 300;
    sp_v : forall v k, In v (p_v P) -> (k < dim)%nat -> ffin (vget v k) /\ Rabs (fval (vget v k)) <= V;
    sp_B : nltb (flip_ratio p) (nofZ 0) = true -> forall B k l, In B (p_B P) -> (k < dim)%nat -> (l < dim)%nat ->
      ffin (mget B k l) /\ Rabs (fval (mget B k l)) <= V * fval (dx p)
  }.
  (** Every nodal velocity after the transfer is finite; with PIC or FLIP it is at most [V] up to rounding,
      with APIC it is at most 35 [V]. *)
  Definition nodal_speeds_okF (V : R) (p : Par F) (axes : list (Axis F)) (P : Particles F) (n : nat) : Prop :=
    forall sched, thread_schedule sched n -> let c := (n * Nat.pow 4 dim + length sched)%nat in INR c <= bpow radix2 43 ->
    exists nodes, p2g p axes P sched (resizeGrid axes) = Ok nodes /\
      forall nd k, In nd nodes -> (k < dim)%nat -> ffin (vget (nd_v nd) k) /\
        Rabs (fval (vget (nd_v nd) k)) <= (if nltb (flip_ratio p) (nofZ 0) then 35 * V else V * (1 + bpow radix2 (-52) * (12 * INR c + 2))).
End SpecVelF.
