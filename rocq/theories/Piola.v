(** * Piola: the first Piola-Kirchhoff stress helpers, /repo/src/simulation/simulation.hpp:230-241.
    They are declared in the Simulation class and not called by the program itself. *)
From Coq Require Import ZArith List Bool.
From Verif Require Import Num Tools Lin Types.
Local Open Scope num_scope.

Section Piola.
  Context {A : Type} {NA : Num A} {G : Geo A}.
  Variable svd : TM -> TM * TV * TM.

  (** simulation.hpp:230-232 *)
  Definition NeoHookeanPiola (p : Par A) (Fe : TM) : TM :=
    let FiT := minv (mtr Fe) in
    madd (mlscale (mu p) (msub Fe FiT)) (mlscale (lambda p * nlog (mdet Fe)) FiT).
  (** simulation.hpp:234-241 *)
  Definition HenckyPiola (p : Par A) (Fe : TM) : TM :=
    let '(U, sigma, V) := svd Fe in
    let logS := mdiag (vmap (fun s => nlog (nabs s)) sigma) in
    let invS := mdiag (vmap (fun s => #1 / s) sigma) in
    mmul (mmul U (madd (mmul (mlscale (#2 * mu p) invS) logS) (mlscale (lambda p * mtrace logS) invS))) (mtr V).
End Piola.
