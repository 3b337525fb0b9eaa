(** * SpecPlastic: stresses, elastic laws and the contract of the SVD, for the material models. *)
From Coq Require Import Reals ZArith List Bool.
From Verif Require Import Num NumR Tools Lin Types.
Import ListNotations.
Local Open Scope R_scope.

Section SpecPlastic.
  Context {G : Geo R}.

  (** Mean compressive stress of a stress tensor. *)
  Definition pressure (t : TM) : R := - (sumd (fun k => mget t k k)) / INR dim.
  (** Shear stress: [c] times the norm of the deviator. *)
  Definition shear (c : R) (t : TM) : R :=
    c * sqrt (sumd (fun i => sumd (fun j => (mget t i j + if Nat.eqb i j then pressure t else 0)²))).

  Definition orthogonal (U : TM) : Prop := mmul (mtr U) U = mident /\ mmul U (mtr U) = mident.

  (** F = U diag(s) V^T with orthogonal U and V and non-negative s (in any order). *)
  Record is_svd (F U : TM) (s : TV) (V : TM) : Prop := {
    sv_U : orthogonal U; sv_V : orthogonal V;
    sv_F : F = mmul (mmul U (mdiag s)) (mtr V);
    sv_s : forall k, (k < dim)%nat -> 0 <= vget s k }.
  (** The contract of Eigen's JacobiSVD. *)
  Definition svd_ok (svd : TM -> TM * TV * TM) : Prop :=
    forall F U s V, svd F = (U, s, V) -> is_svd F U s V.
  (** No principal stretch below 1e-4, where the program cuts off. *)
  Definition stretches_ok (svd : TM -> TM * TV * TM) (F : TM) : Prop :=
    forall U s V, svd F = (U, s, V) -> forall k, (k < dim)%nat -> 1/10000 <= vget s k.

  (** Physical elastic constants, and a positive factor in the definition of q. *)
  Definition elastic (p : Par R) : Prop := 0 < young p /\ -1 < nu p < 1/2 /\ 0 < q_prefac p.

  (** Logarithmic strain of a principal stretch (stretches below 1e-4 count as 1e-4). *)
  Definition log_strain (s : TV) : TV := vtab (fun k => ln (Rmax (vget s k) (1/10000))).
  (** Hencky's law in principal axes [U]. *)
  Definition hencky_stress (p : Par R) (U : TM) (e : TV) : TM :=
    mmul (mmul U (mdiag (vtab (fun k => lambda p * sumd (fun j => vget e j) + 2 * mu p * vget e k)))) (mtr U).
  (** The stress of an elastic material in the trial deformation [F]. *)
  Definition trial_stress (svd : TM -> TM * TV * TM) (p : Par R) (F : TM) : TM :=
    let '(U, s, V) := svd F in hencky_stress p U (log_strain s).

  (** [t] is the Kirchhoff stress of Hencky's law for the deformation gradient [F]. *)
  Definition is_hencky_stress (p : Par R) (F t : TM) : Prop :=
    exists U s V, is_svd F U s V /\ (forall k, (k < dim)%nat -> 0 < vget s k) /\
      t = hencky_stress p U (vtab (fun k => ln (vget s k))).
  (** The Kirchhoff stress of the Neo-Hookean law: mu (F F^T - I) + lambda ln(det F) I. *)
  Definition neo_hookean_stress (p : Par R) (F : TM) : TM :=
    madd (mlscale (mu p) (msub (mmul F (mtr F)) mident)) (mlscale (lambda p * ln (mdet F)) mident).
End SpecPlastic.

Section SpecModels.
  Context {G : Geo R}.
  (** ** Yield surfaces, in terms of pressure [P], shear stress [Q] and history [h]. *)
  (** Shift of the pressure by the volume correction, and softened tensile strength. *)
  Definition vol_shift (p : Par R) (h : Hist R) : R := if use_pradhana p then - bulkK p * h_prad h else 0.
  Definition soft_tip (p : Par R) (ed : R) : R := - q_cohesion p / Mfric p * exp (- xi p * ed).
  Definition vm_yield (p : Par R) (ed : R) : R := q_min p + (q_max p - q_min p) * exp (- xi p * ed).
  (** Cam-Clay ellipse. *)
  Definition cam_clay (M beta pc P Q : R) : R := M² * (P - pc) * (P + beta * pc) + Q².
  (** Preconsolidation pressure of the hardening laws. *)
  Definition preconsolidation (p : Par R) (ev : R) : R :=
    match hardening_law p with
    | NoHard => p0 p
    | ExpoExpl => Rmax (stress_tolerance p) (p0 p * exp (- xi p * ev))
    | SinhExpl => Rmax (stress_tolerance p) (bulkK p * sinh (- xi p * ev + Rasinh (p0 p / bulkK p)))
    | ExpoImpl => p0 p * exp (- xi p * ev)
    | SinhImpl => Rmax (1/100) (bulkK p * sinh (- xi p * ev + Rasinh (p0 p / bulkK p)))
    end.
  (** The elastic domain of each plastic model. *)
  Definition elastic_domain (p : Par R) (h : Hist R) (P Q : R) : Prop :=
    match plastic_model p with
    | NoPlasticity => True
    | VM => Q <= q_max p
    | DP => 1/10000000000 <= Mfric p * P + q_cohesion p /\ Q <= Mfric p * P + q_cohesion p
    | DPSoft => soft_tip p (h_dev h) < P + vol_shift p h /\ Q <= Mfric p * (P + vol_shift p h - soft_tip p (h_dev h))
    | VMVisc => p_min p * exp (- xi p * h_vol h) <= P /\ Q <= vm_yield p (h_dev h)
    | DPVisc => - q_cohesion p / Mfric p <= P + vol_shift p h /\ Q <= Mfric p * (P + vol_shift p h) + q_cohesion p
    | DPMui => - q_cohesion p / mu_1 p <= P + vol_shift p h /\ Q <= mu_1 p * (P + vol_shift p h) + q_cohesion p + stress_tolerance p
    | MCCMui => cam_clay (mu_1 p) (beta p) (preconsolidation p (h_vol h)) P Q <= 0
    | MCC | MCCVisc => cam_clay (Mfric p) (beta p) (preconsolidation p (h_vol h)) P Q <= 0
    end.
  (** x^n for x >= 0 and n > 0. *)
  Definition power (x n : R) : R := if Req_EM_T x 0 then 0 else Rpower x n.
  (** Flow rules, as residuals: [q] is the shear stress after the update, [y] the yield stress,
      [g] the rate of plastic shear.  Perzyna: q = y (1 + t g)^n.  Duvaut-Lions: q - y = f (t g)^n
      with f = 2 q_prefac^2 mu. *)
  Definition flow_residual_perzyna (p : Par R) (q y g : R) : R := q / Rpower (1 + visc_time p * g) (visc_exponent p) - y.
  Definition flow_residual_dl (p : Par R) (q y g : R) : R := q - y - 2 * (q_prefac p)² * mu p * power (visc_time p * g) (visc_exponent p).
End SpecModels.

(** ** Cam-Clay return mappings *)
(** Result on the yield ellipse with preconsolidation pressure [pc]. *)
Definition on_ellipse (M beta pc P Q : R) : Prop := - beta * pc <= P <= pc /\ 0 <= Q /\ cam_clay M beta pc P Q = 0.
(** Nearest pressure in the range of the ellipse. *)
Definition into_range (beta pc P : R) : R := Rmin (Rmax P (- beta * pc)) pc.

(** Admissible material parameters. *)
Record sane {G : Geo R} (p : Par R) : Prop := {
  sa_M : 0 < Mfric p; sa_c : 0 <= q_cohesion p; sa_xi : 0 <= xi p; sa_q : 0 <= q_min p <= q_max p;
  sa_visc : 0 <= visc_time p; sa_n : 0 < visc_exponent p; sa_mu1 : 0 < mu_1 p; sa_mu2 : mu_1 p <= mu_2 p;
  sa_Iref : 0 < I_ref p; sa_d : 0 < grain_diameter p; sa_rho : 0 < rho_s p; sa_tol : 0 <= stress_tolerance p;
  sa_p0 : 0 < p0 p; sa_beta : 0 <= beta p }.

(** ** Line search of the implicit Cam-Clay solvers *)
Section SpecSearch.
  (** [pc]: hardening law; [K]: bulk modulus; [Pt], [et]: pressure and plastic volume strain of the
      trial state; [right]: 1 resp. 0 if the trial state is right resp. left of the ellipse centre. *)
  Variables (pc : R -> R) (K Pt beta et : R) (right : Z).
  (** Pressure reached with plastic volume strain [e], and the centre of the ellipse there. *)
  Definition pressure_at (e : R) : R := K * (e - et) + Pt.
  Definition centre_at (e : R) : R := (pc e - beta * pc e) / 2.
  Definition near_centre (e : R) : Prop := Rabs (pressure_at e - centre_at e) <= 1/100000.
  (** The pressure, or the trial pressure, is on the wrong side of the centre. *)
  Definition wrong_side (e : R) : Prop :=
    (right = 1%Z /\ (pressure_at e < centre_at e \/ Pt < centre_at e)) \/ (right = 0%Z /\ (centre_at e < pressure_at e \/ centre_at e < Pt)).
  (** The plastic multiplier (Pt - p) / (K M^2 (2p + (beta-1) pc)) of the associated flow rule is
      not negative. *)
  Definition admissible (e : R) : Prop := e = et \/ 0 < (et - e) * (2 * pressure_at e + (beta - 1) * pc e).
  Definition undecided (e : R) : Prop := ~ near_centre e /\ ~ wrong_side e /\ ~ admissible e.
  (** The strains tried: the Newton step halved up to 31 times, then backwards. *)
  Definition candidate (e0 step : R) (i : nat) : R :=
    if (i <? 32)%nat then e0 - step / 2 ^ i else e0 + step / 2 ^ (i - 32).
End SpecSearch.
