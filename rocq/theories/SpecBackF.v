(** * SpecBackF: what a particle should read back from the grid, in double precision. *)
From Coq Require Import ZArith Reals List Bool Floats.SpecFloat.
From Flocq Require Import Core.
From Verif Require Import Num NumF Tools Lin Types Remesh Transfer Spec SpecF.
Import ListNotations.
Local Open Scope R_scope.

Section SpecBackF.
  Variable L : Libm.
  Hint Extern 0 (Num F) => exact (NumF L) : typeclass_instances.
  Context {G : Geo F}.

  (** The nodal arrays have the size allocated for [axes]; every component of every nodal velocity is finite and at most [U].
      [U] and the spacing are ordinary numbers. *)
  Record nodes_okF (U : R) (p : Par F) (axes : list (Axis F)) (nodes : list (Node F)) : Prop := {
    nk_len : length nodes = length (resizeGrid axes);
    nk_U : bpow radix2 (-300) <= U <= bpow radix2 300;
    nk_dx : bpow radix2 (-300) <= fval (dx p) <= bpow radix2 300;
    nk_v : forall nd k, In nd nodes -> (k < dim)%nat -> ffin (vget (nd_v nd) k) /\ Rabs (fval (vget (nd_v nd) k)) <= U
  }.
  (** A time step in which a node moves at most one cell. *)
  Definition dt_okF (U : R) (p : Par F) (dt : F) : Prop := ffin dt /\ 0 <= fval dt /\ fval dt * U <= fval (dx p).

  (** [P1] are the particles after reading back from the grid, [P2] those after moving.  No component of a velocity read back
      exceeds [U], no particle moves further than [dt U] along an axis, except by 2^-52 83 (M+8)^2 (relative to [U], or
      2^-52 84 (M+8)^2 in cells); the affine parts are at most 5/2 [U] times the spacing. *)
  Definition read_back_okF (M U : R) (p : Par F) (dt : F) (P P1 P2 : Particles F) : Prop :=
    let e := bpow radix2 (-52) * (M + 8) ^ 2 in
    (forall v k, In v (p_pic P1) -> (k < dim)%nat -> ffin (vget v k) /\ Rabs (fval (vget v k)) <= U * (1 + 83 * e)) /\
    (forall B k l, In B (p_B P1) -> (k < dim)%nat -> (l < dim)%nat -> ffin (mget B k l) /\ Rabs (fval (mget B k l)) <= 5/2 * U * fval (dx p)) /\
    (forall i x y k, nth_error (p_x P) i = Some x -> nth_error (p_x P2) i = Some y -> (k < dim)%nat ->
       ffin (vget y k) /\ Rabs (fval (vget y k) - fval (vget x k)) <= fval dt * U + 84 * e * fval (dx p)).
  (** The same in a periodic simulation: along the x axis a particle moves as above or one period less or more (up to the rounding
      of that shift), and ends between 0 and Lx, both included. *)
  Definition read_back_periodicF (M U : R) (p : Par F) (dt : F) (P P1 P2 : Particles F) : Prop :=
    let e := bpow radix2 (-52) * (M + 8) ^ 2 in
    (forall v k, In v (p_pic P1) -> (k < dim)%nat -> ffin (vget v k) /\ Rabs (fval (vget v k)) <= U * (1 + 83 * e)) /\
    (forall B k l, In B (p_B P1) -> (k < dim)%nat -> (l < dim)%nat -> ffin (mget B k l) /\ Rabs (fval (mget B k l)) <= 5/2 * U * fval (dx p)) /\
    (forall i x y, nth_error (p_x P) i = Some x -> nth_error (p_x P2) i = Some y ->
       (ffin (vget y 0) /\ 0 <= fval (vget y 0) <= fval (Lx p) /\
        exists s, (s = 0 \/ s = fval (Lx p) \/ s = - fval (Lx p)) /\ Rabs (fval (vget y 0) - (fval (vget x 0) + s)) <= fval dt * U + 85 * e * fval (dx p)) /\
       forall k, (0 < k < dim)%nat -> ffin (vget y k) /\ Rabs (fval (vget y k) - fval (vget x k)) <= fval dt * U + 84 * e * fval (dx p)).
End SpecBackF.
