(** * SpecMech: grid velocities and affine fields, for statements about whole time steps. *)
From Coq Require Import Reals ZArith List Bool.
From Verif Require Import Num NumR Tools Lin Types Transfer Step Spec.
Import ListNotations.
Local Open Scope R_scope.

Section SpecMech.
  Context {G : Geo R}.

  (** Velocity component of a node of the grid. *)
  Definition node_v (nodes : list (Node R)) (it : Item R) (k : nat) : R :=
    match rd nodes (it_idx it) with Ok nd => vget (nd_v nd) k | _ => 0 end.
  (** Weighted mean of a nodal quantity over a stencil. *)
  Definition mean (f : Item R -> R) (items : list (Item R)) : R := Rsum (fun it => it_w it * f it) items.
  (** The documented blend of the particle velocity plus the grid increment with the grid velocity. *)
  Definition blend (flip v dv pic : R) : R :=
    if Rlt_dec flip (-1) then pic
    else if Rlt_dec flip 0 then - flip * (v + dv) + (1 + flip) * pic
    else flip * (v + dv) + (1 - flip) * pic.

  (** Second moment of the spline: B = (velocity gradient) times this number. *)
  Definition spline_inertia (p : Par R) : R :=
    match spline p with Deg1 => 0 | Deg2 => dx p * dx p / 4 | Deg3 => dx p * dx p / 3 end.
  (** Free space: no periodic boundaries, no obstacles, no repositioning of particles. *)
  Definition free_space (p : Par R) (s : St R) : Prop :=
    use_pbc p = false /\ change_pos p = false /\ objects p = [] /\ s_plates s = [].
  (** Positions at which the transfers are exact: no stencil weight in (0,1e-25], and with linear
      splines no coordinate on a grid line. *)
  Definition regular_cloud (p : Par R) (axes : list (Axis R)) (xs : list TV) : Prop :=
    forall x, In x xs -> no_tiny_weights p axes x /\ (spline p = Deg1 -> off_grid_lines p axes x).
End SpecMech.
