(** * Examples: concrete parameters and states used to show that hypotheses are satisfiable and
    to witness refutations. *)
From Coq Require Import Reals ZArith Lra Lia List Bool.
From Flocq Require Import Core.Raux.
From Verif Require Import Num NumR Tools Lin Types Remesh Transfer Spec LinProofs ResProofs GridProofs.
Import ListNotations.
Local Open Scope R_scope.

Section Ex.
  Context {G : Geo R}.

  (** The defaults of simulation.hpp:36-114 with the members that examples vary as arguments. *)
  Definition ex_par (s : Spline) (h flip : R) (pm : PlasticModel) (hl : HardeningLaw)
    (pbc mibf musl : bool) (obs : list (Obj R)) : Par R :=
    {| spline := s; end_frame := 1; use_pbc := pbc; change_pos := false; gravity_special := false;
       save_sim := true; save_grid := false; use_mibf := mibf; use_musl := musl;
       grid_ref := vtab (fun _ => 20000000000); gravity0 := vtab (fun _ => 0);
       min_dt := 1/100000000000000; fps := 1; cfl := 1/2; cfl_elastic := 1/2; flip_ratio := flip;
       rho := 1000; gravity_time := 0; Lx := 1; Ly := 1; Lz := 1;
       particle_mass := 1; particle_volume := 1; dx := h;
       elastic_model := Hencky; plastic_model := pm; hardening_law := hl;
       use_pradhana := true; young := 1000000; nu := 3/10; stress_tolerance := 1/100000; xi := 0;
       q_max := 100; q_min := 100; p_min := -100000000000000000000;
       Mfric := 1; q_cohesion := 0; visc_exponent := 1; visc_time := 0; use_dl := false;
       beta := 0; p0 := 1000; rho_s := 2500; grain_diameter := 1/1000; I_ref := 279/1000;
       mu_1 := 38/100; mu_2 := 64/100; q_prefac := 1 / sqrt 2; objects := obs |}.
  Definition ex_std (s : Spline) (h : R) : Par R :=
    ex_par s h (-95/100) NoPlasticity ExpoImpl false false false [].
End Ex.

(** Evaluate arange_loop on concrete reals. *)
Ltac rlt_eval :=
  match goal with
  | |- context [Rltb ?a ?b] =>
      first [ replace (Rltb a b) with true by (symmetry; apply Rltb_true; lra)
            | replace (Rltb a b) with false by (symmetry; apply Rltb_false; lra) ]
  end.
