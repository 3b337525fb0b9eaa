(** * Tools: /repo/src/tools.hpp - enumerations, spline kernels, arange. *)
From Coq Require Import ZArith List Bool.
From Verif Require Import Num.
Import ListNotations.
Local Open Scope num_scope.

(** tools.hpp:53-57 *)
Inductive PlateType := ptop | pbottom | pleft | pright | pfront | pback.
Inductive ElasticModel := Hencky | NeoHookean.
Inductive PlasticModel :=
  NoPlasticity | VM | DP | DPSoft | MCC | VMVisc | DPVisc | MCCVisc | DPMui | MCCMui.
Inductive HardeningLaw := NoHard | ExpoExpl | ExpoImpl | SinhExpl | SinhImpl.
Inductive BC := NoSlip | SlipStick | SlipFree.

(** The compile-time macro SPLINEDEG, tools.hpp:21. *)
Inductive Spline := Deg1 | Deg2 | Deg3.

Section Kernels.
  Context {A : Type} {NA : Num A}.

  (** tools.hpp:110-121.  Simplification: the decimal literals 0.666... and 0.1666... are written
      as the rationals 2/3 and 1/6; in binary64 they round to the same number
      ([NumF]-level check [cubic_literals] in KernelProofs.v). *)
  Definition N3 (u : A) : A :=
    let uabs := nabs u in
    if uabs <? #1 then 1//2 * uabs * uabs * uabs - uabs * uabs + 2//3
    else if uabs <? #2 then 1//6 * (#2 - uabs) * (#2 - uabs) * (#2 - uabs)
    else #0.

  (** tools.hpp:123-134 *)
  Definition dN3 (u : A) : A :=
    let uabs := nabs u in
    if uabs <? #1 then u * (3//2 * uabs - #2)
    else if uabs <? #2 then (-1)//2 * #(sgn u) * (#2 - uabs) * (#2 - uabs)
    else #0.

  (** tools.hpp:136-147 *)
  Definition d2N3 (u : A) : A :=
    let uabs := nabs u in
    if uabs <? #1 then #3 * uabs - #2
    else if uabs <? #2 then #2 - uabs
    else #0.

  (** tools.hpp:151-162 *)
  Definition N2 (u : A) : A :=
    let uabs := nabs u in
    if uabs <? 1//2 then 3//4 - uabs * uabs
    else if uabs <? 3//2 then 1//2 * (3//2 - uabs) * (3//2 - uabs)
    else #0.

  (** tools.hpp:164-175 *)
  Definition dN2 (u : A) : A :=
    let uabs := nabs u in
    if uabs <? 1//2 then #(-2) * u
    else if uabs <? 3//2 then u - 3//2 * #(sgn u)
    else #0.

  (** tools.hpp:177-188 *)
  Definition d2N2 (u : A) : A :=
    let uabs := nabs u in
    if uabs <? 1//2 then #(-2)
    else if uabs <? 3//2 then #1
    else #0.

  (** tools.hpp:192-195 *)
  Definition N1 (u : A) : A :=
    let uabs := nabs u in cmax #0 (#1 - uabs).

  (** tools.hpp:197-209 *)
  Definition dN1 (u : A) : A :=
    let uabs := nabs u in
    if uabs <? #1 then (if #0 <? u then #(-1) else #1) else #0.

  (** tools.hpp:211-213 *)
  Definition d2N1 (u : A) : A := #0.

  Definition N (s : Spline) : A -> A :=
    match s with Deg1 => N1 | Deg2 => N2 | Deg3 => N3 end.
  Definition dNdu (s : Spline) : A -> A :=
    match s with Deg1 => dN1 | Deg2 => dN2 | Deg3 => dN3 end.
  Definition d2Ndu2 (s : Spline) : A -> A :=
    match s with Deg1 => d2N1 | Deg2 => d2N2 | Deg3 => d2N3 end.

  (** tools.hpp:221-226.  The loop [for (value = start; value < stop; value += step)].
      [fuel] bounds the number of iterations; [None] means the fuel did not suffice (theorem
      [arange_terminates] in GridProofs.v gives enough fuel for step > 0 over the reals). *)
  Fixpoint arange_loop (fuel : nat) (value stop step : A) : option (list A) :=
    if value <? stop then
      match fuel with
      | O => None
      | S k => match arange_loop k (value + step) stop step with
               | Some l => Some (value :: l)
               | None => None
               end
      end
    else Some [].
End Kernels.
