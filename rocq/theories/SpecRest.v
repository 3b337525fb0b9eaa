(** * SpecRest: an unloaded body at rest. *)
From Coq Require Import Reals ZArith List Bool.
From Verif Require Import Num NumR Tools Lin Types Objects Transfer Plastic Step Spec SpecPlastic.
Import ListNotations.
Local Open Scope R_scope.

Section SpecRest.
  Context {G : Geo R}.
  (** The unstressed state is in the elastic domain of a particle with history [h], or is the tip of
      the yield surface of a cohesionless Drucker-Prager material. *)
  Definition unloaded (p : Par R) (h : Hist R) : Prop :=
    h_prad h = 0 /\ (plastic_model p = NoPlasticity \/ elastic_model p = Hencky /\ (elastic_domain p h 0 0 \/
      (plastic_model p = DP \/ plastic_model p = DPSoft) /\ q_cohesion p = 0)).
  (** Particles at the positions [xs] with plastic strains [es] (shear, volume), without velocity, deformation and stress. *)
  Record resting (p : Par R) (xs : list TV) (es : list (R * R)) (P : Particles R) : Prop := {
    re_x : p_x P = xs;
    re_v : Forall (fun v => v = vzero) (p_v P);
    re_B : flip_ratio p < 0 -> Forall (fun B => B = mzero) (p_B P);
    re_F : Forall (fun F => F = mident) (p_F P);
    re_tau : Forall (fun t => t = mzero) (p_tau P);
    re_h : Forall (unloaded p) (p_hist P);
    re_e : map (fun h => (h_dev h, h_vol h)) (p_hist P) = es }.
  (** Nothing moves or pulls: no gravity, plates at rest (terrain never moves). *)
  Definition calm (s : St R) : Prop :=
    s_grav s = vzero /\ s_gravf s = vzero /\ Forall (fun pl => pl_v pl = vzero /\ pl_v0 pl = vzero) (s_plates s).
  (** The positions are not moved by the periodic wrap or the change-of-position option. *)
  Definition stay (p : Par R) (xs : list TV) : Prop :=
    change_pos p = false /\ (use_pbc p = true -> forall x, In x xs -> 0 <= vget x 0 <= Lx p).
End SpecRest.
