(** * SpecBalance: angular momentum, kinetic energy and work, for statements about whole time steps. *)
From Coq Require Import Reals ZArith List Bool.
From Verif Require Import Num NumR Tools Lin Types Objects Transfer Plastic Step Spec SpecStep SpecMech SpecMpm.
Import ListNotations.
Local Open Scope R_scope.

Section SpecBalance.
  Context {G : Geo R}.

  (** Component (i,j) of x wedge v. *)
  Definition wedge (x v : TV) (i j : nat) : R := vget x i * vget v j - vget x j * vget v i.
  (** Angular momentum of particles that carry an affine velocity field: orbital part and the spin
      of the field (C66_spin says that this is the angular momentum the field has on the grid). *)
  Definition angular_momentum (p : Par R) (l : list (P1 R)) (i j : nat) : R :=
    particle_mass p * Rsum (fun q => wedge (q_x q) (q_v q) i j + (mget (q_B q) j i - mget (q_B q) i j)) l.
  (** Torque of gravity about the origin. *)
  Definition gravity_torque (p : Par R) (grav : TV) (l : list (P1 R)) (i j : nat) : R :=
    particle_mass p * Rsum (fun q => wedge (q_x q) grav i j) l.
  Definition symmetric_stress (l : list (P1 R)) : Prop :=
    forall q i j, In q l -> (i < dim)%nat -> (j < dim)%nat -> mget (q_tau q) i j = mget (q_tau q) j i.

  (** Squared length. *)
  Definition sq (v : TV) : R := sum_axes (fun k => vget v k * vget v k).
  (** Kinetic energy of the particles, with that of their affine velocity fields if they have any. *)
  Definition kinetic_energy (p : Par R) (l : list (P1 R)) : R :=
    particle_mass p / 2 * Rsum (fun q => sq (q_v q) +
      (if Rlt_dec (flip_ratio p) 0 then apic_scale p * sum_axes (fun i => sum_axes (fun j => mget (q_B q) i j * mget (q_B q) i j)) else 0)) l.
  (** Mass of the node at [X], force on it, and the work of that force during a step: force times the
      mean of the velocities before and after, times dt. *)
  Definition node_mass (p : Par R) (l : list (P1 R)) (X : TV) : R := particle_mass p * Rsum (fun q => weight p X (q_x q)) l.
  Definition node_force (p : Par R) (grav : TV) (l : list (P1 R)) (X : TV) (k : nat) : R := node_mass p l X * vget grav k + internal p l X k.
  Definition node_work (p : Par R) (dt : R) (grav : TV) (l : list (P1 R)) (X : TV) : R :=
    sum_axes (fun k => let f := node_force p grav l X k in dt * f * (projected p l X k + dt * f / (2 * node_mass p l X))).

  (** Total work on the nodes of a grid. *)
  Definition work (p : Par R) (dt : R) (grav : TV) (axes : list (Axis R)) (l : list (P1 R)) : R := Rsum (node_work p dt grav l) (positions axes).
  (** Obstacles that cannot push: terrain with unit normals, plates at rest, friction not negative
      (with material-induced friction it is that of the particles). *)
  Definition passive (p : Par R) (s : St R) : Prop :=
    (forall o X n, In o (objects p) -> normal (ob_shape o) X = Ok n -> vdot n n = 1) /\
    (forall pl, In pl (s_plates s) -> pl_v pl = vzero) /\
    (if use_mibf p then forall q, In q (particles (s_p s)) -> 0 <= h_muI (q_h q) else forall pl, In pl (s_plates s) -> 0 <= pl_fric pl).

  (** A sequence of iterations of the main loop in which every step is exact (see [regular_cloud]);
      the step size, gravity, the grid and the particles at the start of every step are listed. *)
  Inductive exact_run (svd : TM -> TM * TV * TM) (uabs : R -> R) (af : nat) (p : Par R) : St R -> list (R * TV * list (Axis R) * list (P1 R)) -> St R -> Prop :=
  | er_nil : forall s, exact_run svd uabs af p s [] s
  | er_step : forall sc s0 s1 r s2, valid_sched sc -> advanceStep svd uabs af p sc s0 = Ok s1 -> GridOk p (s_axes s1) ->
      regular_cloud p (s_axes s1) (p_x (s_p s0)) -> exact_run svd uabs af p (tick p s1) r s2 ->
      exact_run svd uabs af p s0 ((s_dt s1, s_grav s1, s_axes s1, particles (s_p s0)) :: r) s2.
End SpecBalance.
