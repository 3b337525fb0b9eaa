(** * SpecMaterial: deformation of a particle over a time step and over a history of steps. *)
From Coq Require Import Reals ZArith List Bool.
From Verif Require Import Num NumR Tools Lin Types Transfer Plastic Step Spec SpecStep SpecMech SpecPlastic.
Import ListNotations.
Local Open Scope R_scope.

Section SpecMaterial.
  Context {G : Geo R}.
  Variable svd : TM -> TM * TV * TM.
  Variable uabs : R -> R.

  (** [L] is the gradient at [x] of the velocity interpolated from the grid. *)
  Definition velocity_gradient (p : Par R) (axes : list (Axis R)) (nodes : list (Node R)) (x : TV) (L : TM) : Prop :=
    exists items, stencil base_g2p p axes x = Ok items /\
      forall i j, (i < dim)%nat -> (j < dim)%nat -> mget L i j = Rsum (fun it => node_v nodes it i * vget (it_g it) j) items.
  (** Deformation of a material element over a time step, I + dt L. *)
  Definition increment (dt : R) (L : TM) : TM := madd mident (mscale L dt).
  (** Volume relative to the start: elastic volume ratio times the plastic one. *)
  Definition volume_ratio (F : TM) (h : Hist R) : R := mdet F * exp (h_vol h).

  (** State of one particle that the material model sees. *)
  Definition particle_at (P : Particles R) (i : nat) (F tau : TM) (h : Hist R) : Prop :=
    nth_error (p_F P) i = Some F /\ nth_error (p_tau P) i = Some tau /\ nth_error (p_hist P) i = Some h.

  (** A sequence of time steps of the main loop (any schedules); [l] lists, for particle [i], the
      deformation increment of each step and the trial deformation. *)
  Inductive history (af : nat) (p : Par R) (i : nat) : St R -> list (TM * TM) -> St R -> Prop :=
  | hist_nil : forall s, history af p i s [] s
  | hist_step : forall sc s0 s1 s2 L x F l, valid_sched sc -> advanceStep svd uabs af p sc s0 = Ok s1 ->
      nth_error (p_x (s_p s0)) i = Some x -> velocity_gradient p (s_axes s1) (s_nodes s1) x L ->
      nth_error (p_F (s_p s0)) i = Some F ->
      history af p i (tick p s1) l s2 ->
      history af p i s0 ((increment (s_dt s1) L, mmul (increment (s_dt s1) L) F) :: l) s2.
  (** Product of the volume changes of a list of increments. *)
  Fixpoint total_volume_change (l : list (TM * TM)) : R :=
    match l with [] => 1 | (A, _) :: l => mdet A * total_volume_change l end.
  (** No principal stretch of a trial deformation falls below 1e-4. *)
  Definition moderate (l : list (TM * TM)) : Prop := forall A F, In (A, F) l -> stretches_ok svd F.
End SpecMaterial.
