(** * SpecVisc: Newton's method for one unknown, as used by the viscous materials. *)
From Coq Require Import Reals.
From Coquelicot Require Import Coquelicot.
Local Open Scope R_scope.

(** Slopes closer to zero than 1e-14 are replaced by that number, with the same sign. *)
Definition safe_slope (d : R) : R :=
  if Rlt_dec (Rabs d) (1/100000000000000) then (if Rle_dec 0 d then 1/100000000000000 else - (1/100000000000000)) else d.
(** Newton's step for [f] from [x]; a negative result is replaced by 1e-10. *)
Definition newton_next (f : R -> R) (x : R) : R :=
  let y := x - f x / safe_slope (Derive f x) in if Rlt_dec y 0 then 1/10000000000 else y.
(** Iterates for [f] from [x0]; after an iterate that is exactly zero, where the flow rules need not
    be differentiable, nothing is said. *)
Definition newton_iterates (f : R -> R) (x0 : R) (xs : nat -> R) : Prop :=
  xs 0%nat = x0 /\ forall k, 0 <= xs k /\ (0 < xs k -> xs (S k) = newton_next f (xs k)).
(** The iterate taken: the first with a residual below 1/100, at latest number 60. *)
Definition iterate_taken (f : R -> R) (xs : nat -> R) (k : nat) : Prop :=
  (k <= 60)%nat /\ (forall j, (j < k)%nat -> 1/100 <= Rabs (f (xs j))) /\ (k = 60%nat \/ Rabs (f (xs k)) < 1/100).
