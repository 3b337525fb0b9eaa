(** * SpecBarrier: how far particles may sink into a resting wall or into the ground. *)
From Coq Require Import Reals ZArith List Bool.
From Verif Require Import Num NumR Tools Lin Types Transfer Step Spec SpecStep SpecObj SpecMech SpecMaterial SpecMpm.
Import ListNotations.
Local Open Scope R_scope.

Section SpecBarrier.
  Context {G : Geo R}.
  (** A flat obstacle: a plate, or the ground at height y. *)
  Inductive barrier := APlate (pl : Plate R) | AGround (y : R).
  (** The axis it is normal to, the side (+1 or -1) on which material is allowed, and its position. *)
  Definition bar_axis (b : barrier) : nat := match b with APlate pl => pos_dir (pl_type pl) | AGround _ => 1 end.
  Definition bar_side (b : barrier) : R :=
    match b with AGround _ => 1 | APlate pl => match pl_type pl with pleft | pbottom | pback => 1 | pright | ptop | pfront => -1 end end.
  Definition bar_pos (b : barrier) : R := match b with APlate pl => pl_pos pl | AGround y => y end.
  Definition present (p : Par R) (plates : list (Plate R)) (b : barrier) : Prop :=
    match b with APlate pl => In pl plates | AGround y => exists o, In o (objects p) /\ ob_shape o = Ground y end.
  (** Depth of the point x behind the surface; negative in front of it. *)
  Definition depth (b : barrier) (x : TV) : R := bar_side b * (bar_pos b - vget x (bar_axis b)).
  (** Half the width of the interpolation kernel. *)
  Definition kernel_radius (p : Par R) : R := (INR (degree (spline p)) + 1) / 2 * dx p.

  (** All obstacles are flat and at rest.  Friction is not negative, except on plates normal to axis [k], where it may be anything. *)
  Definition still_scene (p : Par R) (k : nat) (plates : list (Plate R)) : Prop :=
    (forall o, In o (objects p) -> exists y, ob_shape o = Ground y) /\
    (forall q, In q plates -> pl_v q = vzero /\ pl_v0 q = vzero /\ (pos_dir (pl_type q) = k \/ use_mibf p = false /\ 0 <= pl_fric q)).

  (** In the step from [s0] to [s1] no node that carries mass passes beside the ends of the plate.  The ground and front and back plates have no ends. *)
  Definition wide (p : Par R) (s0 s1 : St R) (b : barrier) : Prop :=
    match b with
    | AGround _ => True
    | APlate pl =>
        match ext_dir (pl_type pl) with
        | None => True
        | Some j =>
            use_pbc p = false /\ regular_cloud p (s_axes s1) (p_x (s_p s0)) /\
            let l := particles (s_p s0) in
            forall X free, In X (positions (s_axes s1)) ->
              let m := particle_mass p * Rsum (fun q => weight p X (q_x q)) l in
              0 < m -> uncorrected p (s_dt s1) (s_grav s1) l X m free ->
              pl_lower pl < vget (predicted (s_dt s1) X free) j < pl_upper pl
        end
    end.

  (** Iterations of the main loop in which the grid is addressable and the plate wide enough. *)
  Inductive barrier_run (svd : TM -> TM * TV * TM) (uabs : R -> R) (af : nat) (p : Par R) (b : barrier) : St R -> nat -> St R -> Prop :=
  | br_nil : forall s, barrier_run svd uabs af p b s 0 s
  | br_step : forall sc s0 s1 n s2, valid_sched sc -> advanceStep svd uabs af p sc s0 = Ok s1 -> GridOk p (s_axes s1) -> wide p s0 s1 b ->
      barrier_run svd uabs af p b (tick p s1) n s2 -> barrier_run svd uabs af p b s0 (S n) s2.
End SpecBarrier.
