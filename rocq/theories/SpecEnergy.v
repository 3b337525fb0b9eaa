(** * SpecEnergy: the elastic energy of a stress. *)
From Coq Require Import Reals ZArith List Bool.
From Verif Require Import Num NumR Tools Lin Types Transfer Plastic Spec SpecPlastic.
Import ListNotations.
Local Open Scope R_scope.

Section SpecEnergy.
  Context {G : Geo R}.
  (** Strain energy of Hencky's law as a function of the stress (C68_energy says that it is
      mu |e|^2 + lambda/2 (tr e)^2 in terms of the logarithmic principal strains e). *)
  Definition elastic_energy (p : Par R) (S : TM) : R := (pressure S)² / (2 * bulkK p) + (shear 1 S)² / (4 * mu p).
  (** States in which the return mapping is claimed to dissipate, in terms of the trial pressure [P].
      Away from cohesion everything except the Cam-Clay models and nonlinear viscosity. *)
  Definition dissipative (p : Par R) (h : Hist R) (P : R) : Prop :=
    match plastic_model p with
    | NoPlasticity | VM => True
    | DP => ~ (0 < Mfric p * P + q_cohesion p < 1/10000000000) \/ q_cohesion p = 0
    | DPSoft => vol_shift p h = 0 \/ q_cohesion p = 0
    | VMVisc => visc_exponent p = 1 /\ xi p = 0
    | DPVisc => (vol_shift p h = 0 \/ q_cohesion p = 0) /\ visc_exponent p = 1
    | DPMui => q_cohesion p = 0 /\ (use_pradhana p = true -> 0 <= h_prad h)
    | MCC | MCCVisc | MCCMui => False
    end.
End SpecEnergy.
