(** * SpecMpm: the equations of one time step of the material point method, written as sums over
    all particles and all nodes of the grid, without stencils, buffers, cut-offs or schedules. *)
From Coq Require Import Reals ZArith List Bool.
From Coquelicot Require Import Derive.
From Verif Require Import Num NumR Tools Lin Types Objects Transfer Plastic Step Spec SpecMech SpecObj SpecPlastic SpecMaterial.
Import ListNotations.
Local Open Scope R_scope.

(** The centred cardinal B-spline of degree [d], by truncated powers. *)
Definition tpow (d : nat) (t : R) : R := if Rle_dec t 0 then 0 else t ^ d.
Definition bspline (d : nat) (u : R) : R :=
  Rsum (fun i => (-1) ^ i * Binomial.C (d + 1) i * tpow d (u + (INR d + 1) / 2 - INR i)) (seq 0 (d + 2)) / INR (fact d).
Definition degree (s : Spline) : nat := match s with Deg1 => 1 | Deg2 => 2 | Deg3 => 3 end.

Section SpecMpm.
  Context {G : Geo R}.
  Variable svd : TM -> TM * TV * TM.
  Variable uabs : R -> R.

  (** Positions of the nodes: the Cartesian product of the axes, last axis fastest. *)
  Fixpoint lattice_points (axes : list (Axis R)) : list (list R) :=
    match axes with [] => [[]] | a :: r => flat_map (fun c => map (cons c) (lattice_points r)) (ax_co a) end.
  Definition positions (axes : list (Axis R)) : list TV := map (fun c => vtab (fun k => nth k c 0)) (lattice_points axes).
  (** The particles one by one. *)
  Definition particles (P : Particles R) : list (P1 R) :=
    map (fun i => mkP1 (nth i (p_x P) vzero) (nth i (p_v P) vzero) (nth i (p_pic P) vzero) (nth i (p_flip P) vzero)
                       (nth i (p_hist P) (mkHist 0 0 0 0 0 0)) (nth i (p_F P) mzero) (nth i (p_B P) mzero) (nth i (p_tau P) mzero))
        (seq 0 (length (p_x P))).
  (** Sum over the axes. *)
  Definition sum_axes (f : nat -> R) : R := Rsum f (seq 0 dim).

  (** Derivative of the weight with respect to the [j]-th coordinate of the particle. *)
  Definition dweight (p : Par R) (X x : TV) (j : nat) : R := Derive (fun t => weight p X (vset x j t)) (vget x j).

  (** Velocity that a particle contributes at [X]: for affine transfers (flip_ratio < 0) its velocity
      field B D^-1 (X - x), else its velocity. *)
  Definition apic_scale (p : Par R) : R :=
    match spline p with Deg1 => 0 | Deg2 => 4 / (dx p * dx p) | Deg3 => 3 / (dx p * dx p) end.
  Definition carried (p : Par R) (v : TV) (B : TM) (x X : TV) (k : nat) : R :=
    vget v k + (if Rlt_dec (flip_ratio p) 0 then apic_scale p * sum_axes (fun j => mget B k j * (vget X j - vget x j)) else 0).

  (** Mass average at [X] of the velocities, i.e. the grid velocity before forces. *)
  Definition projected (p : Par R) (l : list (P1 R)) (X : TV) (k : nat) : R :=
    Rsum (fun q => weight p X (q_x q) * carried p (q_v q) (q_B q) (q_x q) X k) l / Rsum (fun q => weight p X (q_x q)) l.
  (** Internal force at [X]. *)
  Definition internal (p : Par R) (l : list (P1 R)) (X : TV) (k : nat) : R :=
    - particle_volume p * Rsum (fun q => sum_axes (fun j => mget (q_tau q) k j * dweight p X (q_x q) j)) l.

  (** Node at [X]: its mass; if it has mass, its velocity is the mass average of the particles
      accelerated by gravity and internal force, then corrected for contact. *)
  Record node_law (p : Par R) (plates : list (Plate R)) (dt : R) (grav : TV) (l : list (P1 R)) (X : TV) (nd : Node R) : Prop := {
    nl_mass : nd_m nd = particle_mass p * Rsum (fun q => weight p X (q_x q)) l;
    nl_empty : nd_m nd = 0 -> nd_v nd = vzero;
    nl_newton : 0 < nd_m nd -> exists free mu,
      (forall k, (k < dim)%nat -> nd_m nd * (vget free k - projected p l X k) = dt * (nd_m nd * vget grav k + internal p l X k)) /\
      (use_mibf p = true -> mu = Rsum (fun q => weight p X (q_x q) * h_muI (q_h q)) l / Rsum (fun q => weight p X (q_x q)) l) /\
      boundaryCollision p plates dt mu X free = Ok (nd_v nd) }.

  (** Value at [x] of the field interpolated from the nodes. *)
  Definition interpolated (p : Par R) (grid : list (TV * Node R)) (x : TV) (f : TV -> Node R -> R) : R :=
    Rsum (fun Xn => weight p (fst Xn) x * f (fst Xn) (snd Xn)) grid.

  (** Particle [q] becomes [q1]; [grid] are the nodes after the grid update, [grid'] those whose
      velocity gradient strains the material. *)
  Record particle_law (p : Par R) (dt : R) (l : list (P1 R)) (grid grid' : list (TV * Node R)) (q q1 : P1 R) : Prop := {
    pl_moves : change_pos p = false -> forall k, (k < dim)%nat ->
      vget (q_x q1) k = vget (q_x q) k + dt * interpolated p grid (q_x q) (fun _ nd => vget (nd_v nd) k);
    pl_reinserted : change_pos p = true -> exists y : TV,   (* where it would move; beyond 0.8 it re-enters at -0.1, higher by 0.27 *)
      (forall k, (k < dim)%nat -> vget y k = vget (q_x q) k + dt * interpolated p grid (q_x q) (fun _ nd => vget (nd_v nd) k)) /\
      (vget y 0 <= 8/10 -> q_x q1 = y) /\
      (8/10 < vget y 0 -> vget (q_x q1) 0 = -1/10 /\ vget (q_x q1) 1 = vget y 1 + 27/100 /\ forall k, (2 <= k < dim)%nat -> vget (q_x q1) k = vget y k);
    pl_velocity : forall k, (k < dim)%nat ->
      vget (q_v q1) k = blend (flip_ratio p) (vget (q_v q) k)
        (interpolated p grid (q_x q) (fun X nd => vget (nd_v nd) k - projected p l X k))
        (interpolated p grid (q_x q) (fun _ nd => vget (nd_v nd) k));
    pl_affine : flip_ratio p < 0 -> forall i j, (i < dim)%nat -> (j < dim)%nat ->
      mget (q_B q1) i j = interpolated p grid (q_x q) (fun X nd => vget (nd_v nd) i * (vget X j - vget (q_x q) j));
    pl_strain : exists L o,
      (forall i j, (i < dim)%nat -> (j < dim)%nat ->
        mget L i j = Rsum (fun Xn => vget (nd_v (snd Xn)) i * dweight p (fst Xn) (q_x q) j) grid') /\
      (let h := q_h q in
       plasticity svd uabs p dt (mmul (increment dt L) (q_F q)) (q_tau q)
         (if use_musl p then mkHist (h_dev h) (h_vol h) (h_prad h) 0 (h_visc h) (h_muI h) else h) = Ok o) /\
      q_F q1 = o_F o /\ q_tau q1 = o_tau o /\ q_h q1 = o_h o }.

  (** MUSL: a node after the second projection; [lq] pairs each particle before the step with the
      particle after it. *)
  Record musl_law (p : Par R) (lq : list (P1 R * P1 R)) (Xn : TV * Node R) (nd : Node R) : Prop := {
    ml_mass : nd_m nd = nd_m (snd Xn);
    ml_empty : nd_m nd = 0 -> nd_v nd = vzero;
    ml_velocity : 0 < nd_m nd -> forall k, (k < dim)%nat ->
      nd_m nd * vget (nd_v nd) k =
      particle_mass p * Rsum (fun qq => weight p (fst Xn) (q_x (fst qq)) * carried p (q_v (snd qq)) (q_B (snd qq)) (q_x (fst qq)) (fst Xn) k) lq }.
End SpecMpm.

Section Held.
  Context {G : Geo R}.
  (** The node at [X] without contact: accelerated by gravity and internal force. *)
  Definition uncorrected (p : Par R) (dt : R) (grav : TV) (l : list (P1 R)) (X : TV) (m : R) (free : TV) : Prop :=
    forall k, (k < dim)%nat -> m * (vget free k - projected p l X k) = dt * (m * vget grav k + internal p l X k).
  (** The node [nd] at [X] obeys the contact condition of the last obstacle that it would enter. *)
  Definition contact_held (p : Par R) (plates : list (Plate R)) (dt : R) (grav : TV) (l : list (P1 R)) (X : TV) (nd : Node R) : Prop :=
    0 < nd_m nd -> forall free, uncorrected p dt grav l X (nd_m nd) free ->
    (forall before pl after, plates = before ++ pl :: after -> in_plate pl (predicted dt X free) ->
       Forall (outside_plate (predicted dt X free)) after -> contact (pl_bc pl) (plate_normal (pl_type pl)) (pl_v pl) (nd_v nd)) /\
    (forall before o after n, objects p = before ++ o :: after -> inside (ob_shape o) (predicted dt X free) = Ok true ->
       Forall (fun o' => inside (ob_shape o') (predicted dt X free) = Ok false) after -> Forall (outside_plate (predicted dt X free)) plates ->
       normal (ob_shape o) (predicted dt X free) = Ok n -> vdot n n = 1 -> contact (ob_bc o) n vzero (nd_v nd)).
End Held.
