(** * SpecStrength: the shear strength of the materials without viscosity. *)
From Coq Require Import Reals ZArith List Bool.
From Verif Require Import Num NumR Tools Lin Types Transfer Plastic Step Spec SpecStep SpecMech SpecPlastic SpecMaterial.
Import ListNotations.
Local Open Scope R_scope.

Section SpecStrength.
  Context {G : Geo R}.
  (** Materials whose strength does not depend on the rate of deformation or on the hardening history,
      and the cohesionless mu(I) Drucker-Prager material, whose strength has a limit. *)
  Definition has_strength (p : Par R) : Prop :=
    match plastic_model p with
    | VM | DP => True
    | DPMui => q_cohesion p = 0
    | VMVisc => visc_time p = 0 /\ visc_exponent p = 1 /\ xi p = 0
    | DPVisc => visc_time p = 0 /\ visc_exponent p = 1
    | _ => False
    end.
  (** Largest shear stress at pressure [P]. *)
  Definition strength (p : Par R) (P : R) : R :=
    match plastic_model p with
    | VM | VMVisc => q_max p
    | DPMui => q_cohesion p + mu_2 p * P + stress_tolerance p
    | _ => q_cohesion p + Mfric p * P
    end.
  Definition within_strength (p : Par R) (t : TM) : Prop := shear (q_prefac p) t <= strength p (pressure t).
  (** Trial pressures that two models treat apart: exactly at the tip of the cone (after the volume
      correction), and tearing. *)
  Definition special (p : Par R) (h : Hist R) (P : R) : Prop :=
    match plastic_model p with
    | VMVisc => P < p_min p * exp (- xi p * h_vol h)
    | DPVisc => P + vol_shift p h = - q_cohesion p / Mfric p
    | DPMui => P + vol_shift p h = - q_cohesion p / mu_1 p
    | _ => False
    end.

  Variable svd : TM -> TM * TV * TM.
  Variable uabs : R -> R.
  (** In the last step that led from [s0] to [s], the trial pressure of particle [i] was special. *)
  Definition met_special (af : nat) (p : Par R) (s0 s : St R) (i : nat) : Prop :=
    exists l sr sc s1 x F t h L, run svd uabs af p s0 l sr /\ advanceStep svd uabs af p sc sr = Ok s1 /\ s = tick p s1 /\
      nth_error (p_x (s_p sr)) i = Some x /\ particle_at (s_p sr) i F t h /\ velocity_gradient p (s_axes s1) (s_nodes s1) x L /\
      special p h (pressure (trial_stress svd p (mmul (increment (s_dt s1) L) F))).
End SpecStrength.
