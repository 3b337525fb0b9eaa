(** * Num: the scalar type [T] of the program as a type class.

    The C++ code is written for [typedef double T] (/repo/src/tools.hpp:19).  Every model
    definition is generic in a type [A] with the operations below; it is instantiated with the
    reals ([NumR.v]) and with IEEE-754 binary64 ([NumF.v]). *)
From Coq Require Import ZArith List Bool.
Import ListNotations.

Class Num (A : Type) : Type := {
  nadd : A -> A -> A;
  nsub : A -> A -> A;
  nmul : A -> A -> A;
  ndiv : A -> A -> A;
  nopp : A -> A;
  nabs : A -> A;                 (* std::abs(double) *)
  nsqrt : A -> A;                (* std::sqrt *)
  ncbrt : A -> A;                (* std::cbrt *)
  nfloor : A -> A;               (* std::floor *)
  nexp : A -> A;
  nlog : A -> A;
  npow : A -> A -> A;
  nsinh : A -> A;
  ncosh : A -> A;
  ntanh : A -> A;
  nasinh : A -> A;
  nsin : A -> A;
  ncos : A -> A;
  natan2 : A -> A -> A;
  nltb : A -> A -> bool;         (* <  *)
  nleb : A -> A -> bool;         (* <= *)
  neqb : A -> A -> bool;         (* == *)
  nofQ : Z -> positive -> A;     (* the literal / integer conversion with value num/den *)
  ntrunc : A -> option Z         (* value truncated towards zero; None for NaN and infinities *)
}.

Declare Scope num_scope.
Delimit Scope num_scope with num.
Infix "+" := nadd : num_scope.
Infix "-" := nsub : num_scope.
Infix "*" := nmul : num_scope.
Infix "/" := ndiv : num_scope.
Notation "- x" := (nopp x) : num_scope.
Infix "<?" := nltb : num_scope.
Infix "<=?" := nleb : num_scope.
Infix "=?" := neqb : num_scope.
Notation "x >? y" := (nltb y x) (at level 70, only parsing) : num_scope.
Notation "x >=? y" := (nleb y x) (at level 70, only parsing) : num_scope.

Section Derived.
  Context {A : Type} {NA : Num A}.
  Local Open Scope num_scope.

  (** Integer converted to [T]. *)
  Definition nofZ (z : Z) : A := nofQ z 1.

  (** std::max(a,b) is [(a < b) ? b : a]; std::min(a,b) is [(b < a) ? b : a] (C++ standard). *)
  Definition cmax (a b : A) : A := if a <? b then b else a.
  Definition cmin (a b : A) : A := if b <? a then b else a.

  (** /repo/src/tools.hpp:90-92  [inline int sgn(T val)]. *)
  Definition sgn (v : A) : Z :=
    ((if (nofZ 0 <? v)%num then 1 else 0) - (if (v <? nofZ 0)%num then 1 else 0))%Z.

  (** Sum over a list, left to right, as a C++ accumulation loop starting from 0 does. *)
  Definition nsum (l : list A) : A := fold_left nadd l (nofZ 0).
End Derived.

Notation "'#' n" := (nofZ n) (at level 1, n at level 0, format "# n") : num_scope.
Notation "n '//' d" := (nofQ n d) (at level 35, d at level 0) : num_scope.

(** ** Outcomes: undefined behaviour is a separate outcome, never a default value; so is running
    out of the fuel that bounds a modelled [while] loop. *)
Inductive res (X : Type) : Type :=
| Ok (x : X)
| UB
| NoFuel.
Arguments Ok {X} x.
Arguments UB {X}.
Arguments NoFuel {X}.

Definition bind {X Y} (r : res X) (f : X -> res Y) : res Y :=
  match r with Ok x => f x | UB => UB | NoFuel => NoFuel end.
Notation "x <- r ;; k" := (bind r (fun x => k)) (at level 61, r at next level, right associativity).
Notation "' p <- r ;; k" := (bind r (fun q => let p := q in k))
  (at level 61, p pattern, r at next level, right associativity).

(** std::vector::operator[] : reading outside the vector is undefined. *)
Definition rd {X} (l : list X) (i : Z) : res X :=
  if (i <? 0)%Z then UB
  else match nth_error l (Z.to_nat i) with Some x => Ok x | None => UB end.

(** Replace element [i] of a list by [f] of it; undefined outside. *)
Fixpoint upd_nat {X} (l : list X) (i : nat) (f : X -> X) : option (list X) :=
  match l, i with
  | [], _ => None
  | x :: r, O => Some (f x :: r)
  | x :: r, S j => match upd_nat r j f with Some r' => Some (x :: r') | None => None end
  end.
Definition upd {X} (l : list X) (i : Z) (f : X -> X) : res (list X) :=
  if (i <? 0)%Z then UB
  else match upd_nat l (Z.to_nat i) f with Some l' => Ok l' | None => UB end.

(** Monadic fold and map over lists (loops). *)
Fixpoint foldM {X S} (f : S -> X -> res S) (l : list X) (s : S) : res S :=
  match l with
  | [] => Ok s
  | x :: r => s' <- f s x ;; foldM f r s'
  end.
Fixpoint mapM {X Y} (f : X -> res Y) (l : list X) : res (list Y) :=
  match l with
  | [] => Ok []
  | x :: r => y <- f x ;; ys <- mapM f r ;; Ok (y :: ys)
  end.

(** 32-bit integer types of the code: [int] and [unsigned int]. *)
Definition int_ok (z : Z) : bool := ((-2147483648 <=? z) && (z <=? 2147483647))%Z.
Definition uint_ok (z : Z) : bool := ((0 <=? z) && (z <=? 4294967295))%Z.
Definition wrapu (z : Z) : Z := (z mod 4294967296)%Z.

(** Conversion of a floating value to [int] / [unsigned int]: undefined when the truncated value
    is not representable ([conv.fpint]). *)
Definition to_int {A} {NA : Num A} (x : A) : res Z :=
  match ntrunc x with Some z => if int_ok z then Ok z else UB | None => UB end.
Definition to_uint {A} {NA : Num A} (x : A) : res Z :=
  match ntrunc x with Some z => if uint_ok z then Ok z else UB | None => UB end.
