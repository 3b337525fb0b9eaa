(** * SpecFriction: what the stored plastic shear rate and friction coefficient should be. *)
From Coq Require Import Reals ZArith List Bool.
From Verif Require Import Num NumR Tools Lin Types Transfer Plastic Spec SpecPlastic.
Import ListNotations.
Local Open Scope R_scope.

Section SpecFriction.
  Context {G : Geo R}.
  (** Plastic shear rate that belongs to the growth of the plastic shear strain over a step. *)
  Definition mean_shear_rate (p : Par R) (dt : R) (h h' : Hist R) : R := (h_dev h' - h_dev h) / (q_prefac p * dt).
  (** Stress that goes with a change of the plastic strain, from the trial pressure P and trial
      shear stress Q. *)
  Definition relaxed_pressure (p : Par R) (P : R) (h h' : Hist R) : R := P + bulkK p * (h_vol h' - h_vol h).
  Definition relaxed_shear (p : Par R) (Q : R) (h h' : Hist R) : R := Q - 2 * q_prefac p * mu p * (h_dev h' - h_dev h).
  (** Fraction of the way from the trial state to the yield surface: Duvaut-Lions viscosity stops
      short of it, all other models reach their target. *)
  Definition dl_weight (p : Par R) (dt : R) : R :=
    match plastic_model p with MCCVisc => if use_dl p then 1 / (1 + visc_time p / dt) else 1 | _ => 1 end.
  Definition target_pressure (p : Par R) (dt P : R) (h h' : Hist R) : R := P + bulkK p * (h_vol h' - h_vol h) / dl_weight p dt.
  Definition target_shear (p : Par R) (dt Q : R) (h h' : Hist R) : R := Q - 2 * q_prefac p * mu p * (h_dev h' - h_dev h) / dl_weight p dt.
  (** Preconsolidation pressure at a compaction: explicit laws take the state before the update,
      implicit ones the state after it. *)
  Definition current_pc (p : Par R) (h h' : Hist R) : R :=
    match hardening_law p with
    | ExpoImpl => Rmax 0 (p0 p * exp (- xi p * h_vol h'))
    | SinhImpl => Rmax 0 (bulkK p * sinh (- xi p * h_vol h' + Rasinh (p0 p / bulkK p)))
    | _ => preconsolidation p (h_vol h)
    end.
  (** The same for MCCMui, where it is kept above the pressure [ps]. *)
  Definition current_pc_above (p : Par R) (h h' : Hist R) (ps : R) : R :=
    match hardening_law p with
    | ExpoImpl => Rmax (p0 p * exp (- xi p * h_vol h')) (ps + stress_tolerance p)
    | SinhImpl => Rmax (bulkK p * sinh (- xi p * h_vol h' + Rasinh (p0 p / bulkK p))) (ps + stress_tolerance p)
    | _ => preconsolidation p (h_vol h)
    end.
  (** Friction coefficient at rest: of the rate-dependent models, and of all others. *)
  Definition static_friction (p : Par R) : R := match plastic_model p with DPMui | MCCMui => mu_1 p | _ => Mfric p end.
  (** Range of the friction coefficient during a simulation. *)
  Definition friction_range (p : Par R) (m : R) : Prop :=
    match plastic_model p with
    | DPMui | MCCMui => mu_1 p <= m <= mu_2 p
    | MCCVisc => Mfric p <= m
    | DPVisc => q_cohesion p = 0 -> visc_exponent p = 1 -> Mfric p <= 10000000000 -> Mfric p <= m
    | _ => m = Mfric p
    end.
  Definition explicit_hardening (p : Par R) : Prop := hardening_law p = ExpoExpl \/ hardening_law p = SinhExpl.
End SpecFriction.
