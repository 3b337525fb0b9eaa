(** * ExSimF: whole simulations evaluated in IEEE binary64.

    The theorems that are stated for every arithmetic (C26 order of frames, C28, C30, C50, C51)
    apply to these runs, which the kernel evaluates. *)
From Coq Require Import ZArith List Bool Lia Floats.SpecFloat Permutation.
From Verif Require Import Num NumF Tools Lin Types Remesh Objects Transfer Rma Plastic Pbc Step Spec SpecStep SpecTime ExamplesF ExStep PropStep PropTime.
Import ListNotations.

(** A libm for bodies that do not deform: log 1 = 0; the other functions are not called. *)
Definition libm0 : Libm :=
  let z := fun _ : F => fofZ 0 in
  {| lm_cbrt := z; lm_exp := fun _ => fofZ 1; lm_log := z; lm_pow := fun _ _ => fofZ 0; lm_sinh := z; lm_cosh := z; lm_tanh := z; lm_asinh := z;
     lm_sin := z; lm_cos := z; lm_atan2 := fun _ _ => fofZ 0 |}.
Local Instance nf0 : Num F := NumF libm0.
Local Existing Instance Geo2.
Definition svd_id (M : @TM F (Geo2 F)) : @TM F (Geo2 F) * @TV F (Geo2 F) * @TM F (Geo2 F) := (mident, vtab (fun _ => fofZ 1), mident).

(** Three frames at ten frames per second; the parameters of [ExStep.ex_p], with gravity. *)
Definition par_sim (musl : bool) (flip : F) : @Par F (Geo2 F) :=
  {| spline := Deg2; end_frame := 3; use_pbc := false; change_pos := false; gravity_special := false;
     save_sim := true; save_grid := true; use_mibf := false; use_musl := musl;
     grid_ref := vtab (fun _ => nofZ 20000000000); gravity0 := mkV2 (nofZ 0) (nofQ (-981) 100);
     min_dt := nofQ 1 1000000000000; fps := nofZ 10; cfl := nofQ 1 2; cfl_elastic := nofQ 1 2;
     flip_ratio := flip; rho := nofZ 1000; gravity_time := nofZ 0; Lx := nofZ 1; Ly := nofZ 1; Lz := nofZ 1;
     particle_mass := nofZ 1; particle_volume := nofZ 1; dx := nofZ 1;
     elastic_model := Hencky; plastic_model := NoPlasticity; hardening_law := ExpoImpl;
     use_pradhana := true; young := nofZ 10000; nu := nofQ 3 10; stress_tolerance := nofQ 1 100000; xi := nofZ 0;
     q_max := nofZ 100; q_min := nofZ 100; p_min := nofZ (-100000000000000000000);
     Mfric := nofZ 1; q_cohesion := nofZ 0; visc_exponent := nofZ 1; visc_time := nofZ 0; use_dl := false;
     beta := nofZ 0; p0 := nofZ 1000; rho_s := nofZ 2500; grain_diameter := nofQ 1 1000; I_ref := nofQ 279 1000;
     mu_1 := nofQ 38 100; mu_2 := nofQ 64 100; q_prefac := ndiv (nofZ 1) (nsqrt (nofZ 2)); objects := [] |}.
Definition cloud_sim : Particles F := gparticles (G := Geo2 F)
  [(mkV2 (nofQ 1 2) (nofQ 1 4), mkV2 (nofZ 1) (nofZ 0), nofZ 0); (mkV2 (nofQ (-1) 2) (nofQ 3 4), mkV2 (nofZ (-1)) (nofQ 1 3), nofZ 0)].
Definition init_sim (p : @Par F (Geo2 F)) : St F := initial_state p cloud_sim [].
Definition run_sim (musl : bool) (flip : F) : res (Stop * St F * list (Ev F)) :=
  let p := par_sim musl flip in simulate svd_id SFabs 40 40 p true (fun _ => seq_sched) (init_sim p).

(** Steps, frame, error flag and frames written of a run that ends normally. *)
Definition outcome (r : res (Stop * St F * list (Ev F))) : option (Z * Z * bool * list Z) :=
  match r with Ok (Finished, s, ev) => Some (s_step s, s_frame s, s_exit s, map s_frame (particle_files ev)) | _ => None end.
Lemma simF_outcome : outcome (run_sim false (nofQ (-95) 100)) = Some (3, 3, false, [0; 1; 2; 3; 3])%Z.
Proof. vm_compute. reflexivity. Qed.
Lemma simF_musl_outcome : outcome (run_sim true (nofZ 0)) = Some (3, 3, false, [0; 1; 2; 3; 3])%Z.
Proof. vm_compute. reflexivity. Qed.
Lemma outcome_run : forall r a b c l, outcome r = Some (a, b, c, l) -> exists s ev, r = Ok (Finished, s, ev) /\ s_step s = a /\ s_frame s = b /\ s_exit s = c /\ map s_frame (particle_files ev) = l.
Proof. intros [[[[] s] ev]| |] a b c l H; try discriminate. cbn in H. exists s, ev. split; [reflexivity|]. repeat split; congruence. Qed.
Lemma init_wf : forall p, well_formed (init_sim p) 2.
Proof. intros p. split; [constructor; reflexivity|]. split; [reflexivity|]. cbn. lia. Qed.
Global Opaque run_sim par_sim.
(** The run ends after three steps, with the frames C26_frames_in_order allows, and its states keep
    the particle arrays (C51). *)
Example simF_runs : exists s' ev, run_sim false (nofQ (-95) 100) = Ok (Finished, s', ev) /\ s_step s' = 3%Z /\
  map s_frame (particle_files ev) = frames_upto (s_frame s') ++ [s_frame s'] /\ s_frame s' = 3%Z /\ s_exit s' = false.
Proof. destruct (outcome_run _ _ _ _ _ simF_outcome) as (s & ev & E & E1 & E2 & E3 & E4). exists s, ev. rewrite E4, E2. repeat split; auto. Qed.
Transparent run_sim.
Example simF_well_formed : forall s' ev, run_sim false (nofQ (-95) 100) = Ok (Finished, s', ev) ->
  well_formed s' 2 /\ forall s, In (EvParticles s) ev \/ In (EvGrid s) ev -> well_formed s 2.
Proof.
  unfold run_sim. cbv zeta. intros s' ev E.
  exact (C51_simulation_keeps_arrays (Geo2 F) svd_id SFabs 40 40 (par_sim false (nofQ (-95) 100)) true (fun _ => seq_sched) (init_sim (par_sim false (nofQ (-95) 100))) 2 Finished s' ev (fun _ => seq_valid) (init_wf _) E).
Qed.
(** With MUSL and PIC. *)
Example simF_musl : exists s' ev, run_sim true (nofZ 0) = Ok (Finished, s', ev) /\ map s_frame (particle_files ev) = [0; 1; 2; 3; 3]%Z.
Proof. destruct (outcome_run _ _ _ _ _ simF_musl_outcome) as (s & ev & E & _ & _ & _ & E4). eauto. Qed.
