(** * SpecGridF: a cloud of particles for which laying out the grid in double precision makes sense. *)
From Coq Require Import ZArith Reals List Floats.SpecFloat.
From Flocq Require Import Core.
From Verif Require Import Num NumF Tools Lin Types Remesh Transfer SpecF.
Import ListNotations.
Local Open Scope R_scope.

Definition two_or_threeF (G : Geo F) : Prop := G = Geo2 F \/ G = Geo3 F.

Section SpecGridF.
  Variable L : Libm.
  Hint Extern 0 (Num F) => exact (NumF L) : typeclass_instances.
  Context {G : Geo F}.

  (** The spacing is a normal number; every particle, and the reference point if there is one, is
      within M cells of the origin on each axis, with M at most a million. *)
  Record cloud_okF (M : R) (p : Par F) (xs : list TV) : Prop := {
    cl_M : 1 <= M <= 1048576;
    cl_dx : ffin (dx p) /\ bpow radix2 (-900) <= fval (dx p) <= bpow radix2 900;
    cl_xs : forall x k, In x xs -> (k < dim)%nat -> ffin (vget x k) /\ Rabs (fval (vget x k)) <= M * fval (dx p);
    cl_ref : nltb (vget (grid_ref p) 0) (nofZ 10000000000) = true ->
      forall k, (k < dim)%nat -> ffin (vget (grid_ref p) k) /\ Rabs (fval (vget (grid_ref p) k)) <= M * fval (dx p)
  }.

  (** The stencil of [x], the same in both transfers, lies in the nodal arrays that are allocated for
      [axes]. *)
  Definition stencil_in_arraysF (p : Par F) (axes : list (Axis F)) (x : TV) : Prop :=
    exists items, stencil base_p2g p axes x = Ok items /\ stencil base_g2p p axes x = Ok items /\
      length items = Nat.pow 4 dim /\
      forall it, In it items -> (0 <= it_idx it < Z.of_nat (length (resizeGrid axes)))%Z.

  (** On an axis whose first grid was made for particles between [ma_min m] and [ma_max m], the coordinate [x]
      is not, up to rounding, a whole number of cells outside that range or just beyond one.  The window is
      dx/1e8 wide (the code's safety term), plus 2^-49 (M+8)^2 cells of rounding on either side. *)
  Definition off_cell_edgesF (M : R) (p : Par F) (m : MeshAx F) (x : F) : Prop :=
    let h := fval (dx p) in let w := bpow radix2 (-49) * (M + 8) ^ 2 in
    let off d := forall n : Z, (1 <= n)%Z -> ~ (IZR n - w < d < IZR n + h / 100000000 + w) in
    off ((fval (ma_min m) - fval x) / h) /\ off ((fval x - fval (ma_max m)) / h).

  (** A side of the periodic box. *)
  Definition box_sideF (M : R) (p : Par F) (l : F) : Prop := ffin l /\ 0 <= fval l <= (M - 6) * fval (dx p).
  Definition box_okF (M : R) (p : Par F) : Prop :=
    box_sideF M p (Lx p) /\ box_sideF M p (Ly p) /\ (dim = 3%nat -> box_sideF M p (Lz p)).
  (** [x] is inside the box or up to four cells outside it (on the y axis: not below zero),
      and not within rounding of those limits. *)
  Definition near_boxF (M : R) (p : Par F) (x : TV) : Prop :=
    let h := fval (dx p) in let w := bpow radix2 (-49) * (M + 8) ^ 2 in
    (- (4 - w) * h <= fval (vget x 0) <= fval (Lx p) + (4 - w) * h) /\
    (w * h <= fval (vget x 1) <= fval (Ly p) + (4 - w) * h) /\
    (dim = 3%nat -> - (4 - w) * h <= fval (vget x 2) <= fval (Lz p) + (4 - w) * h).
  (** A particle of a periodic simulation: between 0 and Lx, and not, up to rounding, exactly four cells from either end. *)
  Definition in_periodF (M : R) (p : Par F) (x : TV) : Prop :=
    let h := fval (dx p) in let w := 2 * (bpow radix2 (-49) * (M + 8) ^ 2) in
    0 <= fval (vget x 0) <= fval (Lx p) /\
    ~ (4 - w < fval (vget x 0) / h < 4 + w) /\ ~ (4 - w < (fval (Lx p) - fval (vget x 0)) / h < 4 + w).
End SpecGridF.
