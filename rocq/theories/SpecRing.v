(** * SpecRing: a body that repeats itself along x. *)
From Coq Require Import Reals ZArith List Bool.
From Verif Require Import Num NumR Tools Lin Types Transfer Step Spec SpecStep SpecMech SpecMpm SpecPbc.
Import ListNotations.
Local Open Scope R_scope.

Section Ring.
  Context {G : Geo R}.
  (** The particle moved by [d] along x. *)
  Definition moved (d : R) (q : P1 R) : P1 R :=
    mkP1 (shift_x (q_x q) d) (q_v q) (q_pic q) (q_flip q) (q_h q) (q_F q) (q_B q) (q_tau q).
  (** The integers from -K to K. *)
  Definition upto (K : nat) : list Z := map (fun i => (Z.of_nat i - Z.of_nat K)%Z) (seq 0 (2 * K + 1)).
  (** The periodic body: the particles and their copies, moved by -K to K periods. *)
  Definition copies (p : Par R) (K : nat) (l : list (P1 R)) : list (P1 R) :=
    flat_map (fun k => map (moved (IZR k * Lx p)) l) (upto K).
  (** [q1] is [u], moved by a whole number of periods (at most one) along x. *)
  Definition wrapped (p : Par R) (u q1 : P1 R) : Prop :=
    exists k : Z, (-1 <= k <= 1)%Z /\ q1 = moved (IZR k * Lx p) u /\ (- Lx p <= vget (q_x u) 0 <= 2 * Lx p -> 0 <= vget (q_x q1) 0 <= Lx p).
End Ring.

(** A sequence of iterations of the main loop with periodic boundaries on the grid [axes], every step
    of which starts with the particles in the box, where the transfers are exact for them and their
    copies; the step size and gravity of every step are listed. *)
Inductive ring_run {G : Geo R} (svd : TM -> TM * TV * TM) (uabs : R -> R) (af : nat) (p : Par R) (axes : list (Axis R)) : St R -> list (R * TV) -> St R -> Prop :=
| rr_nil : forall s, ring_run svd uabs af p axes s [] s
| rr_step : forall sc s0 s1 r s2, valid_sched sc -> (forall q, In q (particles (s_p s0)) -> 0 <= vget (q_x q) 0 < Lx p) ->
    (forall q, In q (copies p 1 (particles (s_p s0))) -> in_grid p axes (q_x q) -> regular_cloud p axes [q_x q]) ->
    advanceStep svd uabs af p sc s0 = Ok s1 -> ring_run svd uabs af p axes (tick p s1) r s2 ->
    ring_run svd uabs af p axes s0 ((s_dt s1, s_grav s1) :: r) s2.
