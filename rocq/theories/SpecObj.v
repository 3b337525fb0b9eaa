(** * SpecObj: what the boundary properties mean.  Independent of the collision code. *)
From Coq Require Import Reals ZArith List Bool.
From Verif Require Import Num NumR Tools Lin Types.
Import ListNotations.
Local Open Scope R_scope.

Section SpecObj.
  Context {G : Geo R}.

  (** s times the k-th unit vector. *)
  Definition evec (k : nat) (s : R) : TV := vtab (fun j => if Nat.eqb j k then s else 0).
  (** Unit normal of a plate, pointing from the plate to the side on which material is allowed. *)
  Definition plate_normal (t : PlateType) : TV :=
    match t with
    | pleft => evec 0 1 | pright => evec 0 (-1)
    | pbottom => evec 1 1 | ptop => evec 1 (-1)
    | pback => evec 2 1 | pfront => evec 2 (-1)
    end.
  (** Tangential part of w. *)
  Definition tang (n w : TV) : TV := vsub w (lscale (vdot w n) n).

  (** The contact condition of a boundary with unit normal n moving with velocity u. *)
  Definition contact (bc : BC) (n u v : TV) : Prop :=
    match bc with
    | NoSlip => v = u
    | SlipStick => vdot (vsub v u) n = 0
    | SlipFree => 0 <= vdot (vsub v u) n
    end.

  (** Coulomb friction: from relative velocity w to w'. *)
  Definition coulomb (mu : R) (n w w' : TV) : Prop :=
    (exists c, 0 <= c <= 1 /\ w' = lscale c (tang n w)) /\
    vnorm w' = Rmax 0 (vnorm (tang n w) - mu * Rabs (vdot w n)).

  (** Position the collision test uses for a node at Xi with velocity vi. *)
  Definition predicted (dt : R) (Xi vi : TV) : TV := vadd Xi (lscale dt vi).

  (** The points a plate keeps free: on its wall side, and between its lower and upper end.  Front and back plates exist in 3D only and have no ends. *)
  Definition in_plate (pl : Plate R) (X : TV) : Prop :=
    let between c := pl_lower pl < c < pl_upper pl in
    match pl_type pl with
    | pleft => vget X 0 <= pl_pos pl /\ between (vget X 1)
    | pright => pl_pos pl <= vget X 0 /\ between (vget X 1)
    | pbottom => vget X 1 <= pl_pos pl /\ between (vget X 0)
    | ptop => pl_pos pl <= vget X 1 /\ between (vget X 0)
    | pback => dim = 3%nat /\ vget X 2 <= pl_pos pl
    | pfront => dim = 3%nat /\ pl_pos pl <= vget X 2
    end.
  Definition outside_plate (X : TV) (pl : Plate R) : Prop := ~ in_plate pl X.
End SpecObj.

Section Level.
  Context {G : Geo R}.
  (** The terrain as a level set: positive in the free space. *)
  Definition level (s : Shape R) (X : TV) : R :=
    let x := vget X 0 in let y := vget X 1 in let z := vget X 2 in
    match s with
    | Ground yg => y - yg
    | Curve => y - x ^ 2
    | Bump => y - 475/10000 / cosh (25 * (x - 43/100))
    | Ramp => y - 1/10 * tanh (-100 * x)
    | Gate h => h + 100 * x ^ 2 - y
    | Silo _ => 1 + tanh y - sqrt (x ^ 2 + z ^ 2)
    | Custom _ _ => 0
    end.
  (** The analytic terrains and the dimension they are written for. *)
  Definition analytic (s : Shape R) : Prop :=
    match s with Silo _ => dim = 3%nat | Custom _ _ => False | _ => True end.
  (** g is the gradient of f at X. *)
  Definition gradient_at (f : TV -> R) (X g : TV) : Prop :=
    forall k, (k < dim)%nat -> derivable_pt_lim (fun t => f (vset X k t)) (vget X k) (vget g k).
End Level.
