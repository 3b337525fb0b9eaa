(** * SpecWave: speed of elastic compression waves. *)
From Coq Require Import Reals.
From Verif Require Import Num NumR Tools Lin Types.
Local Open Scope R_scope.

Section SpecWave.
  Context {G : Geo R}.
  (** Density of the material the particles stand for. *)
  Definition density (p : Par R) : R := particle_mass p / particle_volume p.
  (** Modulus of uniaxial strain, E (1 - nu) / ((1 + nu) (1 - 2 nu)); it is lambda + 2 mu. *)
  Definition wave_modulus (p : Par R) : R := young p * (1 - nu p) / ((1 + nu p) * (1 - 2 * nu p)).
  (** Speed of plane compression waves. *)
  Definition p_wave (p : Par R) : R := sqrt (wave_modulus p / density p).
  (** Ratio of that speed to the speed of waves in a slender bar, sqrt (E / density). *)
  Definition wave_ratio (p : Par R) : R := sqrt ((1 - nu p) / ((1 + nu p) * (1 - 2 * nu p))).
  (** An elastic material whose particles have the density that is set. *)
  Definition elastic_body (p : Par R) : Prop :=
    0 < young p /\ -1 < nu p < 1/2 /\ 0 < rho p /\ 0 < particle_volume p /\ particle_mass p = rho p * particle_volume p.
End SpecWave.
