(** * ExMainF: the shipped program evaluated in IEEE binary64, for one particle.

    C71_collapse_program is about real arithmetic; the kernel evaluates the same definitions here
    with binary64 operations.  The material stays unstrained (the SVD and the logarithm are those of
    the identity); gravity, grid, plate, time steps and frames are those of the program. *)
From Coq Require Import ZArith List Bool Lia Floats.SpecFloat.
From Verif Require Import Num NumF Tools Lin Types Remesh Objects Transfer Rma Plastic Pbc Step Sampling Main Spec SpecStep SpecTime ExamplesF ExStep PropStep PropTime ExSimF.
Import ListNotations.

Definition libm1 : Libm :=
  let z := fun _ : F => fofZ 0 in
  {| lm_cbrt := z; lm_exp := fun _ => fofZ 1; lm_log := z; lm_pow := fun _ _ => fofZ 0; lm_sinh := z; lm_cosh := z; lm_tanh := z; lm_asinh := z;
     lm_sin := z; lm_cos := fun _ => fofZ 1; lm_atan2 := fun _ _ => fofZ 0 |}.
Local Instance nf1 : Num F := NumF libm1.
Local Existing Instance Geo2.
Definition tan30 (_ : F) : F := nofQ 57735 100000.
Definition collapse_runF : res (Stop * St F * list (Ev F)) :=
  collapse_main svd_id SFabs tan30 Deg2 (nofZ 0) 200 40 (fun _ => seq_sched) [mkV2 (nofQ 1 2) (nofQ 1 2)].
Lemma collapse_outcome : outcome collapse_runF = Some (60, 20, false, frames_upto 20 ++ [20])%Z.
Proof. vm_compute. reflexivity. Qed.
(** 60 time steps, every frame from 0 to 20 once and the last one again, no error. *)
Example C71_collapse_binary64 : exists s ev, collapse_runF = Ok (Finished, s, ev) /\ s_exit s = false /\ map s_frame (particle_files ev) = (frames_upto 20 ++ [20])%Z.
Proof. destruct (outcome_run _ _ _ _ _ collapse_outcome) as (s & ev & E & _ & _ & X & L). eauto. Qed.
