(** * SpecStep: sequences of time steps, and the state of plates. *)
From Coq Require Import Reals ZArith List Bool Permutation.
From Verif Require Import Num NumR Tools Lin Types Objects Transfer Plastic Step Spec.
Import ListNotations.
Local Open Scope R_scope.

(** Schedules the OpenMP runtime may choose: every iteration exactly once, in any order and on any
    thread. *)
Record valid_sched (sc : Sched) : Prop := {
  vs_pbc : forall n, Permutation (sc_pbc sc n) (seq 0 n);
  vs_p2g : forall n, thread_schedule (sc_p2g sc n) n;
  vs_euler : forall n, Permutation (sc_euler sc n) (seq 0 n);
  vs_g2p : forall n, Permutation (sc_g2p sc n) (seq 0 n);
  vs_musl1 : forall n, Permutation (sc_musl1 sc n) (seq 0 n);
  vs_musl : forall n, thread_schedule (sc_musl sc n) n;
  vs_def : forall n, Permutation (sc_def sc n) (seq 0 n);
  vs_pos : forall n, Permutation (sc_pos sc n) (seq 0 n)
}.

Section State.
  Context {A : Type} {G : Geo A}.
  (** A state with [n] particles in all arrays and in the counter; [n] fits in an int. *)
  Definition well_formed (s : St A) (n : nat) : Prop :=
    consistent (s_p s) n /\ s_Np s = Z.of_nat n /\ (Z.of_nat n <= 2147483647)%Z.
End State.

Section SpecStep.
  Context {G : Geo R}.
  Variable svd : TM -> TM * TV * TM.
  Variable uabs : R -> R.

  (** [run af p s0 l s1]: some number of iterations of the main loop lead from s0 to s1; [l] lists
      the step sizes and the times at which the steps started, in order. *)
  Inductive run (af : nat) (p : Par R) : St R -> list (R * R) -> St R -> Prop :=
  | run_nil : forall s, run af p s [] s
  | run_step : forall sc s0 s1 l s2, advanceStep svd uabs af p sc s0 = Ok s1 ->
      run af p (tick p s1) l s2 -> run af p s0 ((s_dt s1, s_time s0) :: l) s2.

  (** Every obstacle answers the inside test, and gives a normal where it contains the point. *)
  Definition obstacles_defined (p : Par R) : Prop := forall o X, In o (objects p) ->
    exists b, inside (ob_shape o) X = Ok b /\ (b = true -> exists n, normal (ob_shape o) X = Ok n).
  (** The constitutive update never reads an uninitialised variable. *)
  Definition material_defined (p : Par R) : Prop := forall dt F tau h, exists o, plasticity svd uabs p dt F tau h = Ok o.

  (** The velocity prescribed for a plate at a given time. *)
  Definition prescribed (p : Par R) (pl : Plate R) (time : R) : TV :=
    if Rlt_dec time (pl_load pl * frame_dt p) then vdivs (pl_v0 pl) (pl_vmin pl) else pl_v0 pl.

  (** Directions of the plate's coordinate and of its extent; front and back plates have none. *)
  Definition pos_dir (t : PlateType) : nat :=
    match t with pleft | pright => 0 | pbottom | ptop => 1 | pback | pfront => 2 end%nat.
  Definition ext_dir (t : PlateType) : option nat :=
    match t with pleft | pright => Some 1 | pbottom | ptop => Some 0 | pback | pfront => None end%nat.
End SpecStep.
