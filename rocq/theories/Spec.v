(** * Spec: the vocabulary of the property statements.

    Plain mathematical definitions, written without the model's algorithms: what a uniform grid
    is, when a point is inside it, sums, weighted averages, and so on.  The property files state
    the theorems with these words and with the model's functions only. *)
From Coq Require Import Reals ZArith List Bool.
From Coq Require Import Permutation.
From Verif Require Import Num NumR Tools Lin Types Remesh Objects Transfer.
Import ListNotations.
Local Open Scope R_scope.

(** The two dimensions the program can be compiled for. *)
Definition two_or_three (G : Geo R) : Prop := G = Geo2 R \/ G = Geo3 R.

(** Sum of [f] over a list. *)
Fixpoint Rsum {X} (f : X -> R) (l : list X) : R :=
  match l with [] => 0 | x :: r => f x + Rsum f r end.

(** An axis whose nodes are c, c+h, ..., c+(n-1)h with n > 0. *)
Definition lattice (h : R) (a : Axis R) : Prop :=
  exists n : nat, (0 < n)%nat /\ ax_co a = map (fun i => ax_c a + INR i * h) (seq 0 n).

(** Number of nodes of the grid. *)
Definition prodlen {A} (axes : list (Axis A)) : Z :=
  fold_right (fun a n => (Z.of_nat (length (ax_co a)) * n)%Z) 1%Z axes.

Section Arrays.
  Context {A : Type} {G : Geo A}.

  (** Every particle array has [n] entries. *)
  Record consistent (P : Particles A) (n : nat) : Prop := {
    co_x : length (p_x P) = n; co_v : length (p_v P) = n; co_pic : length (p_pic P) = n;
    co_flip : length (p_flip P) = n; co_hist : length (p_hist P) = n; co_F : length (p_F P) = n;
    co_B : length (p_B P) = n; co_tau : length (p_tau P) = n }.
End Arrays.

Section Spec.
  Context {G : Geo R}.

  (** A grid with spacing dx in the right dimension whose node count fits in 32 bits. *)
  Record GridOk (p : Par R) (axes : list (Axis R)) : Prop := {
    go_dim : length axes = dim;
    go_lat : Forall (lattice (dx p)) axes;
    go_fit : (prodlen axes <= 4294967295)%Z
  }.

  (** The point lies at least one cell right of the first node and, on each axis, at least two
      cells left of one-past-the-last node: its whole 4-node stencil exists. *)
  Definition in_grid (p : Par R) (axes : list (Axis R)) (x : TV) : Prop :=
    forall k a, nth_error axes k = Some a ->
      ax_c a + dx p <= vget x k < ax_c a + (INR (length (ax_co a)) - 2) * dx p.

  (** The point lies on no grid line. *)
  Definition off_grid_lines (p : Par R) (axes : list (Axis R)) (x : TV) : Prop :=
    forall k a (n : Z), nth_error axes k = Some a -> vget x k <> ax_c a + IZR n * dx p.

  (** Tensor-product spline weight of the node at [X] for a particle at [x]. *)
  Definition weight (p : Par R) (X x : TV) : R :=
    fold_right Rmult 1 (map (fun k => N (spline p) ((vget x k - vget X k) / dx p)) (seq 0 dim)).

  (** A distribution of the iterations 0..n-1 over threads, in any order. *)
  Definition thread_schedule (sched : list (list nat)) (n : nat) : Prop :=
    Permutation (concat sched) (seq 0 n).

  (** No node of the particle's stencil has a weight in (0, 1e-25], the range the transfers cut
      off. *)
  Definition no_tiny_weights (p : Par R) (axes : list (Axis R)) (x : TV) : Prop :=
    forall items it, stencil base_p2g p axes x = Ok items -> In it items ->
      it_w it = 0 \/ 1 / 10000000000000000000000000 < it_w it.
End Spec.
