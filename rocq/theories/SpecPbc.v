(** * SpecPbc: periodic images of particles. *)
From Coq Require Import Reals ZArith List Bool.
From Verif Require Import Num NumR Tools Lin Types.
Import ListNotations.
Local Open Scope R_scope.

Section SpecPbc.
  Context {G : Geo R}.
  (** The point moved by [d] along x. *)
  Definition shift_x (x : TV) (d : R) : TV := vset x 0 (vget x 0 + d).
  (** Entry [j] of the arrays used by the transfers is the copy of entry [i], moved by [d]. *)
  Definition image_at (P : Particles R) (i j : nat) (d : R) : Prop :=
    exists x v F B t,
      nth_error (p_x P) i = Some x /\ nth_error (p_v P) i = Some v /\ nth_error (p_F P) i = Some F /\
      nth_error (p_B P) i = Some B /\ nth_error (p_tau P) i = Some t /\
      nth_error (p_x P) j = Some (shift_x x d) /\ nth_error (p_v P) j = Some v /\ nth_error (p_F P) j = Some F /\
      nth_error (p_B P) j = Some B /\ nth_error (p_tau P) j = Some t.
End SpecPbc.
