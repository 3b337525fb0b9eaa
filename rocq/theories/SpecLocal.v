(** * SpecLocal: what lies around a point, and grids on one lattice. *)
From Coq Require Import Reals ZArith List Bool Permutation.
From Verif Require Import Num NumR Tools Lin Types Transfer Step SpecMech SpecMpm.
Import ListNotations.
Local Open Scope R_scope.

Section Local.
  Context {G : Geo R}.
  (** Half the width of the interpolation kernel. *)
  Definition kernel_radius (p : Par R) : R := match spline p with Deg1 => 1 | Deg2 => 3/2 | Deg3 => 2 end * dx p.
  (** [y] is outside the box of half width [r] around [x]. *)
  Definition beyond (r : R) (x y : TV) : Prop := exists k, (k < dim)%nat /\ r <= Rabs (vget y k - vget x k).
  (** Two clouds that have the same particles around [x] and any others beyond the distance [r]. *)
  Definition same_around (r : R) (x : TV) (l l' : list (P1 R)) : Prop :=
    exists near far far', Permutation l (near ++ far) /\ Permutation l' (near ++ far') /\
      forall q, In q (far ++ far') -> beyond r x (q_x q).
  (** Grids of any two extents whose nodes belong to one lattice. *)
  Definition one_lattice (p : Par R) (axes axes' : list (Axis R)) : Prop :=
    forall k a a', nth_error axes k = Some a -> nth_error axes' k = Some a' -> exists m : Z, ax_c a' = ax_c a + IZR m * dx p.
End Local.
