(** * Properties C66 and C67: angular momentum and kinetic energy over time steps. *)
From Coq Require Import Reals ZArith Lra Lia List Bool Permutation.
From Verif Require Import Num NumR Tools Lin Types Remesh Objects Transfer Rma Plastic Pbc Step Spec SpecStep SpecMech SpecObj SpecPlastic SpecMaterial
  SpecMpm SpecBalance LinProofs ResProofs GridProofs GradProofs StepProofs StepMech StepField PlasticProofs PlasticGlue StressProofs
  MaterialStep StencilProofs   PlateProofs ObjectProofs RestProofs ExStep ExMech MpmProofs BalanceProofs PropStep.
Import ListNotations.
Local Open Scope R_scope.

(** ** C66 *)
(** The angular momentum of the particles is that of the velocity field they project on the grid. *)
Theorem C66_spin : forall (G : Geo R), two_or_three G -> forall p axes l,
  0 < dx p -> 0 < particle_mass p -> GridOk p axes -> (forall q, In q l -> in_grid p axes (q_x q)) -> flip_ratio p < 0 -> spline p <> Deg1 ->
  forall i j, (i < dim)%nat -> (j < dim)%nat ->
  angular_momentum p l i j = Rsum (fun X => node_mass p l X * (vget X i * projected p l X j - vget X j * projected p l X i)) (positions axes).
Proof.
  intros G HG p axes l Hdx Hm GO IG Hf Hs i j Hi Hj. pose proof (geolaws G HG) as GL.
  assert (Cov : forall q, In q l -> StencilProofs.Covered p axes (q_x q)) by (intros q Hq; apply in_grid_covered; auto).
  assert (Ol : spline p = Deg1 -> forall q, In q l -> off_lines p axes (q_x q)) by (intros; contradiction).
  rewrite <- (brought_angular p Hdx axes GO l Cov Ol Hf Hs i j Hi Hj). apply Rsum_ext. intros X HX.
  rewrite <- !(brought_projected p Hdx Hm axes GO l Cov Ol X) by auto. ring.
Qed.
Print Assumptions C66_spin.

(** One step with affine transfers, any scheme: the angular momentum changes by the torque of
    gravity; transfers, internal forces and the choice of USL or MUSL do not change it. *)
Theorem C66_angular_momentum : forall (G : Geo R), two_or_three G -> forall svd uabs af p sc s0 s1 n,
  0 < dx p -> 0 < particle_mass p -> valid_sched sc -> well_formed s0 n -> free_space p s0 ->
  flip_ratio p < -1 -> spline p <> Deg1 -> symmetric_stress (particles (s_p s0)) ->
  advanceStep svd uabs af p sc s0 = Ok s1 -> GridOk p (s_axes s1) -> regular_cloud p (s_axes s1) (p_x (s_p s0)) ->
  forall i j, (i < dim)%nat -> (j < dim)%nat ->
  angular_momentum p (particles (s_p s1)) i j = angular_momentum p (particles (s_p s0)) i j + s_dt s1 * gravity_torque p (s_grav s1) (particles (s_p s0)) i j.
Proof.
  intros G HG svd uabs af p sc s0 s1 n Hdx Hm V W Fs Hf Hs Sy E GO RC. pose proof (geolaws G HG) as GL.
  exact (angular_step svd uabs af p sc s0 s1 n Hdx Hm (proj1 Fs) V W E GO RC Fs Hf Hs Sy).
Qed.
Print Assumptions C66_angular_momentum.

(** The stress stays symmetric. *)
Lemma stress_symmetric : forall (G : Geo R), two_or_three G -> forall svd uabs af p sc s0 s1 n,
  valid_sched sc -> well_formed s0 n -> elastic_model p = Hencky -> advanceStep svd uabs af p sc s0 = Ok s1 -> symmetric_stress (particles (s_p s1)).
Proof.
  intros G HG svd uabs af p sc s0 s1 n V W Em H. pose proof (geolaws G HG) as GL.
  destruct (step_constitutive svd uabs af p sc s0 s1 n V W H) as (la & lb & Ea & _ & Eb & St). rewrite Eb, particles_pack.
  intros q i j Hq Hi Hj. destruct (F2_in_r _ _ _ _ _ St q Hq) as (qa & _ & c & L & o & _ & P & _ & Et & _). rewrite Et.
  destruct (plast_inv svd uabs p _ _ _ _ _ P) as (U & sg & Vm & r & _ & _ & _ & T & _). rewrite Em in T. rewrite T.
  assert (S : mtr (hencky_tau p U (r_hencky r)) = hencky_tau p U (r_hencky r)) by (unfold hencky_tau; now rewrite !mtr_mul, mtr_tr, mtr_diag, mmul_assoc).
  rewrite <- S at 2. autorewrite with geo. reflexivity.
Qed.
(** Any number of steps of a Hencky material, whatever the plastic model and the singular value
    decomposition: the angular momentum is the initial one plus the torques of gravity. *)
Theorem C66_angular_momentum_run : forall (G : Geo R), two_or_three G -> forall svd uabs af p s0 r s2 n,
  0 < dx p -> 0 < particle_mass p -> exact_run svd uabs af p s0 r s2 -> well_formed s0 n -> free_space p s0 ->
  flip_ratio p < -1 -> spline p <> Deg1 -> elastic_model p = Hencky -> symmetric_stress (particles (s_p s0)) ->
  forall i j, (i < dim)%nat -> (j < dim)%nat ->
  angular_momentum p (particles (s_p s2)) i j = angular_momentum p (particles (s_p s0)) i j +
    Rsum (fun '(dt, grav, _, l) => dt * gravity_torque p grav l i j) r.
Proof.
  intros G HG svd uabs af p s0 r s2 n Hdx Hm Rn W Fs Hf Hs Em Sy i j Hi Hj. induction Rn as [s|sc s0 s1 r s2 V E GO RC Rn IH]; [cbn; ring|].
  assert (Tp : s_p (tick p s1) = s_p s1) by (unfold tick; cbv zeta; destruct (nltb _ _); reflexivity).
  assert (Tl : s_plates (tick p s1) = s_plates s1) by (unfold tick; cbv zeta; destruct (nltb _ _); reflexivity).
  pose proof (C51_step_keeps_arrays G svd uabs af p sc s0 s1 n V W E) as W1.
  assert (Fs1 : free_space p (tick p s1)).
  { destruct Fs as (F1 & F2 & F3 & F4). repeat split; auto. destruct (step_keep svd uabs af p sc s0 s1 E) as (_ & _ & _ & K & _). rewrite Tl, K, F4. reflexivity. }
  rewrite IH; [|now apply wf_tick|exact Fs1|rewrite Tp; exact (stress_symmetric G HG svd uabs af p sc s0 s1 n V W Em E)].
  rewrite Tp, (C66_angular_momentum G HG svd uabs af p sc s0 s1 n Hdx Hm V W Fs Hf Hs Sy E GO RC i j Hi Hj). cbn [Rsum]. ring.
Qed.
Print Assumptions C66_angular_momentum_run.
(** Without gravity it is conserved. *)
Theorem C66_conserved : forall (G : Geo R), two_or_three G -> forall svd uabs af p s0 r s2 n,
  0 < dx p -> 0 < particle_mass p -> exact_run svd uabs af p s0 r s2 -> well_formed s0 n -> free_space p s0 ->
  flip_ratio p < -1 -> spline p <> Deg1 -> elastic_model p = Hencky -> symmetric_stress (particles (s_p s0)) ->
  (forall dt grav axes l, In (dt, grav, axes, l) r -> grav = vzero) ->
  forall i j, (i < dim)%nat -> (j < dim)%nat -> angular_momentum p (particles (s_p s2)) i j = angular_momentum p (particles (s_p s0)) i j.
Proof.
  intros G HG svd uabs af p s0 r s2 n Hdx Hm Rn W Fs Hf Hs Em Sy Gz i j Hi Hj. pose proof (geolaws G HG) as GL.
  rewrite (C66_angular_momentum_run G HG svd uabs af p s0 r s2 n Hdx Hm Rn W Fs Hf Hs Em Sy i j Hi Hj), Rsum_zero; [ring|].
  intros [[[dt grav] axes] l] Hi'. rewrite (Gz _ _ _ _ Hi'). unfold gravity_torque, wedge. rewrite Rsum_zero; [ring|]. intros q _. autorewrite with geo. ring.
Qed.
Print Assumptions C66_conserved.

(** Two moving, spinning, stressed particles under gravity. *)
Example C66_ex : forall svd uabs (musl : bool), exists af s1, let p := ex_p (-2) musl 1000 (e2 0 (-10)) false in
  let s0 := ex_state p (two_particles (e2 1 2) (e2 (-3) 4) (mkM2 1 2 3 4) mident (mkM2 5 1 1 7) (mkM2 (-2) 0 0 3)) in
  0 < dx p /\ 0 < particle_mass p /\ valid_sched rev_sched /\ well_formed s0 2 /\ free_space p s0 /\ flip_ratio p < -1 /\ spline p <> Deg1 /\
  symmetric_stress (particles (s_p s0)) /\ advanceStep svd uabs af p rev_sched s0 = Ok s1 /\ GridOk p (s_axes s1) /\ regular_cloud p (s_axes s1) (p_x (s_p s0)) /\
  exact_run svd uabs af p s0 [(s_dt s1, s_grav s1, s_axes s1, particles (s_p s0))] (tick p s1) /\
  angular_momentum p (particles (s_p s0)) 0 1 <> 0 /\ gravity_torque p (s_grav s1) (particles (s_p s0)) 0 1 = 0 /\ elastic_model p = Hencky.
Proof.
  intros. destruct (ex_mech svd uabs rev_sched (-2) musl (e2 0 (-10)) (e2 1 2) (e2 (-3) 4) (mkM2 1 2 3 4) mident (mkM2 5 1 1 7) (mkM2 (-2) 0 0 3) rev_valid) as (af & s1 & E & Fs & GO & RC & Gr).
  exists af, s1. cbv zeta. split; [apply ex_dx|]. split; [apply ex_mass|]. split; [exact rev_valid|]. split; [apply ex_wf|]. split; [exact Fs|]. split; [cbn; lra|]. split; [discriminate|].
  split; [|split; [exact E|]; split; [exact GO|]; split; [exact RC|]; split; [|split; [|split]]].
  - intros q i j Hq Hi Hj. cbn in Hi, Hj. destruct Hq as [<-|[<-|[]]]; destruct i as [|[|]]; try lia; destruct j as [|[|]]; try lia; reflexivity.
  - econstructor; [exact rev_valid|exact E|exact GO|exact RC|constructor].
  - unfold angular_momentum, wedge. cbn. lra.
  - rewrite Gr. unfold gravity_torque, wedge. cbn. lra.
  - reflexivity.
Qed.

(** ** C67 *)
(** One step of plain or affine PIC (no FLIP part), any spline, USL or MUSL, beside obstacles that
    cannot push: the kinetic energy grows by no more than the work of gravity and internal forces. *)
Theorem C67_energy_balance : forall (G : Geo R), two_or_three G -> forall svd uabs af p sc s0 s1 n,
  0 < dx p -> 0 < particle_mass p -> use_pbc p = false -> valid_sched sc -> well_formed s0 n ->
  flip_ratio p < -1 \/ flip_ratio p = 0 -> passive p s0 ->
  advanceStep svd uabs af p sc s0 = Ok s1 -> GridOk p (s_axes s1) -> regular_cloud p (s_axes s1) (p_x (s_p s0)) ->
  kinetic_energy p (particles (s_p s1)) <= kinetic_energy p (particles (s_p s0)) + work p (s_dt s1) (s_grav s1) (s_axes s1) (particles (s_p s0)).
Proof.
  intros G HG svd uabs af p sc s0 s1 n Hdx Hm Hp V W Hf Pa E GO RC. pose proof (geolaws G HG) as GL.
  exact (energy_step svd uabs af p sc s0 s1 n Hdx Hm Hp V W E GO RC HG Hf Pa).
Qed.
Print Assumptions C67_energy_balance.
(** Stress-free particles without gravity: the transfers and contact alone never create kinetic energy. *)
Theorem C67_no_forces : forall (G : Geo R), two_or_three G -> forall svd uabs af p sc s0 s1 n,
  0 < dx p -> 0 < particle_mass p -> use_pbc p = false -> valid_sched sc -> well_formed s0 n ->
  flip_ratio p < -1 \/ flip_ratio p = 0 -> passive p s0 -> (forall q, In q (particles (s_p s0)) -> q_tau q = mzero) -> s_grav s1 = vzero ->
  advanceStep svd uabs af p sc s0 = Ok s1 -> GridOk p (s_axes s1) -> regular_cloud p (s_axes s1) (p_x (s_p s0)) ->
  kinetic_energy p (particles (s_p s1)) <= kinetic_energy p (particles (s_p s0)).
Proof.
  intros G HG svd uabs af p sc s0 s1 n Hdx Hm Hp V W Hf Pa Tz Gz E GO RC. pose proof (geolaws G HG) as GL.
  pose proof (C67_energy_balance G HG svd uabs af p sc s0 s1 n Hdx Hm Hp V W Hf Pa E GO RC) as B.
  replace (work _ _ _ _ _) with 0 in B; [lra|]. symmetry. unfold work. apply Rsum_zero. intros X _. unfold node_work. rewrite (sum_axes_sumd G GL). apply sumd_zero. intros k Hk. cbv zeta.
  assert (F : node_force p (s_grav s1) (particles (s_p s0)) X k = 0).
  { unfold node_force, internal. rewrite Gz, Rsum_zero; [autorewrite with geo; ring|]. intros q Hq. rewrite (sum_axes_sumd G GL). apply sumd_zero. intros j Hj. rewrite (Tz q Hq). autorewrite with geo. ring. }
  rewrite F. unfold Rdiv. ring.
Qed.
Print Assumptions C67_no_forces.
(** Any number of steps beside terrain and plates that stay at rest. *)
Theorem C67_energy_run : forall (G : Geo R), two_or_three G -> forall svd uabs af p s0 r s2 n,
  0 < dx p -> 0 < particle_mass p -> use_pbc p = false -> exact_run svd uabs af p s0 r s2 -> well_formed s0 n ->
  flip_ratio p < -1 \/ flip_ratio p = 0 -> use_mibf p = false ->
  (forall o X n, In o (objects p) -> normal (ob_shape o) X = Ok n -> vdot n n = 1) ->
  (forall pl, In pl (s_plates s0) -> pl_v pl = vzero /\ pl_v0 pl = vzero /\ 0 <= pl_fric pl) ->
  kinetic_energy p (particles (s_p s2)) <= kinetic_energy p (particles (s_p s0)) + Rsum (fun '(dt, grav, axes, l) => work p dt grav axes l) r.
Proof.
  intros G HG svd uabs af p s0 r s2 n Hdx Hm Hp Rn W Hf Mi Un Pl. pose proof (geolaws G HG) as GL. induction Rn as [s|sc s0 s1 r s2 V E GO RC Rn IH]; [cbn; lra|].
  assert (Tp : s_p (tick p s1) = s_p s1) by (unfold tick; cbv zeta; destruct (nltb _ _); reflexivity).
  assert (Tl : s_plates (tick p s1) = s_plates s1) by (unfold tick; cbv zeta; destruct (nltb _ _); reflexivity).
  pose proof (C51_step_keeps_arrays G svd uabs af p sc s0 s1 n V W E) as W1.
  assert (Pa : passive p s0) by (split; [exact Un|]; rewrite Mi; split; intros pl H; destruct (Pl pl H) as (A & _ & B); auto).
  pose proof (C67_energy_balance G HG svd uabs af p sc s0 s1 n Hdx Hm Hp V W Hf Pa E GO RC) as B.
  assert (Pl1 : forall pl, In pl (s_plates (tick p s1)) -> pl_v pl = vzero /\ pl_v0 pl = vzero /\ 0 <= pl_fric pl).
  { destruct (step_keep svd uabs af p sc s0 s1 E) as (_ & _ & _ & K & _). rewrite Tl, K.
    assert (Q : Forall (fun pl => pl_v pl = vzero /\ pl_v0 pl = vzero) (map (plate_move (s_dt s1) (frame_dt p) (s_time s0)) (s_plates s0))).
    { apply moved_calm. apply Forall_forall. intros pl H. destruct (Pl pl H) as (A1 & A2 & _). auto. }
    intros pl H. destruct (proj1 (Forall_forall _ _) Q pl H) as (A1 & A2). split; [auto|]. split; [auto|].
    apply in_map_iff in H. destruct H as (pl0 & <- & H0). destruct (Pl pl0 H0) as (_ & _ & A). unfold plate_move. cbv zeta.
    destruct (pl_type pl0); try destruct dim as [|[|[|[|]]]]; cbn; auto. }
  specialize (IH ltac:(now apply wf_tick) Pl1). rewrite Tp in IH. cbn [Rsum]. lra.
Qed.
Print Assumptions C67_energy_run.

(** The same two particles beside a resting frictional wall. *)
Definition still_wall : @Plate R (Geo2 R) := mkPlate (G := Geo2 R) (-1) pleft SlipStick (1/2) (-10) 10 vzero vzero 1 0.
Example C67_ex : forall svd uabs (musl : bool) flip, flip = -2 \/ flip = 0 -> exists af s1, let p := ex_p flip musl 1000 (e2 0 (-10)) false in
  let s0 := initial_state p (two_particles (e2 1 2) (e2 (-3) 4) (mkM2 1 2 3 4) mident (mkM2 5 1 1 7) (mkM2 (-2) 0 0 3)) [still_wall] in
  0 < dx p /\ 0 < particle_mass p /\ use_pbc p = false /\ valid_sched rev_sched /\ well_formed s0 2 /\ (flip_ratio p < -1 \/ flip_ratio p = 0) /\ passive p s0 /\
  use_mibf p = false /\ (forall o X n, In o (objects p) -> normal (ob_shape o) X = Ok n -> vdot n n = 1) /\
  (forall pl, In pl (s_plates s0) -> pl_v pl = vzero /\ pl_v0 pl = vzero /\ 0 <= pl_fric pl) /\
  advanceStep svd uabs af p rev_sched s0 = Ok s1 /\ GridOk p (s_axes s1) /\ regular_cloud p (s_axes s1) (p_x (s_p s0)) /\
  exact_run svd uabs af p s0 [(s_dt s1, s_grav s1, s_axes s1, particles (s_p s0))] (tick p s1) /\
  0 < kinetic_energy p (particles (s_p s0)).
Proof.
  intros svd uabs musl flip Hfl. destruct (ex_mech_with svd uabs rev_sched flip musl (e2 0 (-10)) (e2 1 2) (e2 (-3) 4) (mkM2 1 2 3 4) mident (mkM2 5 1 1 7) (mkM2 (-2) 0 0 3) [still_wall] rev_valid) as (af & s1 & E & GO & RC & _).
  exists af, s1. cbv zeta. split; [apply ex_dx|]. split; [apply ex_mass|]. split; [reflexivity|]. split; [exact rev_valid|]. split; [apply ex_wf|]. split; [cbn; destruct Hfl; subst; lra|].
  assert (Pl : forall pl : @Plate R (Geo2 R), In pl [still_wall] -> pl_v pl = vzero /\ pl_v0 pl = vzero /\ 0 <= pl_fric pl) by (intros pl [<-|[]]; cbn; repeat split; lra).
  split; [split; [intros o X n []|]; split; intros pl H; destruct (Pl pl H) as (A & _ & B); auto|]. split; [reflexivity|]. split; [intros o X n []|]. split; [exact Pl|].
  split; [exact E|]. split; [exact GO|]. split; [exact RC|]. split; [econstructor; [exact rev_valid|exact E|exact GO|exact RC|constructor]|].
  unfold kinetic_energy, sq, apic_scale, sum_axes. cbn. destruct (Rlt_dec _ _); lra.
Qed.
