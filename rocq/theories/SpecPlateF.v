(** * SpecPlateF: resting plates in double precision. *)
From Coq Require Import ZArith Reals List Bool Floats.SpecFloat.
From Flocq Require Import Core.
From Verif Require Import Num NumF Tools Lin Types SpecF.
Import ListNotations.
Local Open Scope R_scope.

Section SpecPlateF.
  Context {G : Geo F}.
  (** [b] has the sign of [a] and is not larger. *)
  Definition between0 (a b : R) : Prop := 0 <= b <= a \/ a <= b <= 0.
  (** A plate that does not move. *)
  Definition plate_restF (pl : Plate F) : Prop := forall k, (k < dim)%nat -> ffin (vget (pl_v pl) k) /\ fval (vget (pl_v pl) k) = 0.
  (** A friction coefficient up to 2^100; none in three dimensions. *)
  Definition fric_okF (f : F) : Prop := ffin f /\ 0 <= fval f <= bpow radix2 100 /\ (dim = 3%nat -> fval f = 0).
  Definition finiteF (B : R) (x : F) : Prop := ffin x /\ Rabs (fval x) <= B.
  (** The point [X] is on or behind the surface of the plate, within its extent. *)
  Definition behindF (pl : Plate F) (X : TV) : Prop :=
    let x := fval (vget X 0) in let y := fval (vget X 1) in let z := fval (vget X 2) in
    let pos := fval (pl_pos pl) in let lo := fval (pl_lower pl) in let up := fval (pl_upper pl) in
    match pl_type pl with
    | pleft => lo < y < up /\ x <= pos
    | pright => lo < y < up /\ pos <= x
    | pbottom => lo < x < up /\ y <= pos
    | ptop => lo < x < up /\ pos <= y
    | pback => dim = 3%nat /\ z <= pos
    | pfront => dim = 3%nat /\ pos <= z
    end.
  (** The speed at which [v] goes into the plate. *)
  Definition into_plate (pl : Plate F) (v : TV) : R :=
    match pl_type pl with
    | pleft => - fval (vget v 0) | pright => fval (vget v 0)
    | pbottom => - fval (vget v 1) | ptop => fval (vget v 1)
    | pback => - fval (vget v 2) | pfront => fval (vget v 2)
    end.
  (** The plate [q] is where [pl] is, and does not move. *)
  Definition same_place (pl q : Plate F) : Prop :=
    pl_type q = pl_type pl /\ pl_bc q = pl_bc pl /\ pl_fric q = pl_fric pl /\ plate_restF q /\
    (ffin (pl_pos q) /\ fval (pl_pos q) = fval (pl_pos pl)) /\ (ffin (pl_lower q) /\ fval (pl_lower q) = fval (pl_lower pl)) /\ (ffin (pl_upper q) /\ fval (pl_upper q) = fval (pl_upper pl)).
End SpecPlateF.
