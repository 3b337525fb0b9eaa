(** * ExStep: a concrete two-particle state in 2D on which steps and runs succeed, used for the
    examples beside the theorems about steps and runs. *)
From Coq Require Import Reals ZArith Lra Lia List Bool Permutation.
From Verif Require Import Num NumR Tools Lin Types Remesh Objects Transfer Plastic Step Spec SpecStep LinProofs ResProofs
  PloopProofs StepProofs Examples SpecTime TimeProofs PlateProofs.
Import ListNotations.
Local Open Scope R_scope.

Definition seq_sched : Sched :=
  mkSched (fun n => seq 0 n) (fun n => [seq 0 n]) (fun n => seq 0 n) (fun n => seq 0 n) (fun n => seq 0 n) (fun n => [seq 0 n])
          (fun n => seq 0 n) (fun n => seq 0 n).
(** Two threads in reverse order. *)
Definition rev_sched : Sched :=
  mkSched (fun n => rev (seq 0 n)) (fun n => [[]; rev (seq 0 n)]) (fun n => rev (seq 0 n)) (fun n => rev (seq 0 n)) (fun n => rev (seq 0 n)) (fun n => [[]; rev (seq 0 n)])
          (fun n => rev (seq 0 n)) (fun n => rev (seq 0 n)).
Lemma seq_valid : valid_sched seq_sched.
Proof. constructor; intros n; cbn; unfold thread_schedule; cbn; rewrite ?app_nil_r; apply Permutation_refl. Qed.
Lemma rev_valid : valid_sched rev_sched.
Proof. constructor; intros n; cbn; unfold thread_schedule; cbn; rewrite ?app_nil_r; symmetry; apply Permutation_rev. Qed.

Definition e2 (a b : R) : @TV R (Geo2 R) := mkV2 a b.
(** Positions (1/2,1/4) and (-1/2,3/4). *)
Definition two_particles (v1 v2 : @TV R (Geo2 R)) (B1 B2 t1 t2 : @TM R (Geo2 R)) : @Particles R (Geo2 R) :=
  mkParticles (G := Geo2 R) [e2 (1/2) (1/4); e2 (-1/2) (3/4)] [v1; v2] [vzero; vzero] [vzero; vzero]
    [mkHist 0 0 0 0 0 0; mkHist 0 0 0 0 0 0] [mident; mident] [B1; B2] [t1; t2].
Definition at_rest : @Particles R (Geo2 R) := two_particles vzero vzero mzero mzero mzero mzero.
Notation ex_state p P := (initial_state p P []).

(** The same parameters with another frame rate and gravity, grid spacing 1. *)
Definition ex_p (flip : R) (musl : bool) (rate : R) (g : @TV R (Geo2 R)) (special : bool) : @Par R (Geo2 R) :=
  {| spline := Deg2; end_frame := 1; use_pbc := false; change_pos := false; gravity_special := special;
     save_sim := true; save_grid := true; use_mibf := false; use_musl := musl;
     grid_ref := vtab (fun _ => 20000000000); gravity0 := g;
     min_dt := 1/100000000000000; fps := rate; cfl := 1/2; cfl_elastic := 1/2; flip_ratio := flip;
     rho := 1000; gravity_time := 2; Lx := 1; Ly := 1; Lz := 1;
     particle_mass := 1; particle_volume := 1; dx := 1;
     elastic_model := Hencky; plastic_model := NoPlasticity; hardening_law := ExpoImpl;
     use_pradhana := true; young := 1000; nu := 3/10; stress_tolerance := 1/100000; xi := 0;
     q_max := 100; q_min := 100; p_min := -100000000000000000000;
     Mfric := 1; q_cohesion := 0; visc_exponent := 1; visc_time := 0; use_dl := false;
     beta := 0; p0 := 1000; rho_s := 2500; grain_diameter := 1/1000; I_ref := 279/1000;
     mu_1 := 38/100; mu_2 := 64/100; q_prefac := 1 / sqrt 2; objects := [] |}.

Lemma ex_wf : forall p v1 v2 B1 B2 t1 t2 pls, well_formed (initial_state p (two_particles v1 v2 B1 B2 t1 t2) pls) 2.
Proof. intros. split; [|split; [reflexivity|cbn; lia]]. constructor; reflexivity. Qed.
Theorem ex_step_with : forall svd uabs sc flip musl rate g sp v1 v2 B1 B2 t1 t2 pls, valid_sched sc ->
  exists af0, forall af, (af0 <= af)%nat -> exists s1,
    advanceStep svd uabs af (ex_p flip musl rate g sp) sc (initial_state (ex_p flip musl rate g sp) (two_particles v1 v2 B1 B2 t1 t2) pls) = Ok s1 /\
    GridOk (ex_p flip musl rate g sp) (s_axes s1) /\
    (forall x, In x [e2 (1/2) (1/4); e2 (-1/2) (3/4)] -> in_grid (ex_p flip musl rate g sp) (s_axes s1) x).
Proof.
  intros svd uabs sc flip musl rate g sp v1 v2 B1 B2 t1 t2 pls V.
  apply (first_step (GL := geolaws _ (or_introl eq_refl)) svd uabs _ sc (initial_state (ex_p flip musl rate g sp) (two_particles v1 v2 B1 B2 t1 t2) pls) 2); auto.
  - cbn. lra.
  - apply ex_wf.
  - now apply no_obstacles.
  - now apply no_plasticity.
  - intros x k Hx Hk. change (dx (ex_p flip musl rate g sp)) with 1.
    destruct Hx as [<-|[<-|[]]]; destruct k as [|[|k]]; cbn in Hk |- *; try lia; unfold Rabs; destruct (Rcase_abs _); lra.
  - intros k Hk H. exfalso. cbn in H. lra.
Qed.
Theorem ex_step : forall svd uabs sc flip musl rate g sp v1 v2 B1 B2 t1 t2, valid_sched sc ->
  exists af0, forall af, (af0 <= af)%nat -> exists s1,
    advanceStep svd uabs af (ex_p flip musl rate g sp) sc (ex_state (ex_p flip musl rate g sp) (two_particles v1 v2 B1 B2 t1 t2)) = Ok s1 /\
    GridOk (ex_p flip musl rate g sp) (s_axes s1) /\
    (forall x, In x [e2 (1/2) (1/4); e2 (-1/2) (3/4)] -> in_grid (ex_p flip musl rate g sp) (s_axes s1) x).
Proof. intros. now apply ex_step_with. Qed.

(** Without plasticity no step raises the error flag. *)
Lemma elastic_exit : forall (G : Geo R) (GL : GeoLaws G) svd uabs af p sc s0 s1 n, valid_sched sc -> well_formed s0 n ->
  plastic_model p = NoPlasticity -> advanceStep svd uabs af p sc s0 = Ok s1 -> s_exit s1 = s_exit s0.
Proof.
  intros G GL svd uabs af p sc s0 s1 n V W Pm H. destruct (wf_pack s0 n W) as (l & L & E & N & F).
  destruct (step_run svd uabs af p sc s0 s1 l V E N F H) as [Rn].
  assert (Hp : forall dt vg q r, strain_particle (plast svd uabs) p dt vg q = Ok r -> fst (snd r) = false).
  { intros dt vg q r Hr. unfold strain_particle, plast, plasticity in Hr. destruct (svd _) as [[U sg] W']. cbv zeta in Hr. unfold return_map in Hr. rewrite Pm in Hr.
    cbn [bind] in Hr. injection Hr as <-. reflexivity. }
  assert (Hx : forall A B (f : A -> res (B * Flags)) l' rs, (forall q r, f q = Ok r -> fst (snd r) = false) -> mapM f l' = Ok rs -> existsb (fun r => fst (snd r)) rs = false).
  { intros A B f l'. induction l' as [|q l' IH]; intros rs Hf Hr; cbn in Hr; [now injection Hr as <-|].
    invb. cbn [existsb]. erewrite Hf by eassumption. erewrite IH; eauto. }
  assert (Hg : existsb (fun r => fst (snd r)) (ru_rs _ _ _ _ _ _ _ _ Rn) = false).
  { eapply Hx; [|apply (ru_g2p _ _ _ _ _ _ _ _ Rn)]. intros q r Hr. unfold g2p_particle in Hr. cbv zeta in Hr. invb.
    destruct (use_musl p); [now injection Hr as <-|]. eapply Hp; eauto. }
  pose proof (ru_rest _ _ _ _ _ _ _ _ Rn) as Hm. destruct (use_musl p).
  - destruct Hm as (g3 & rs3 & _ & Hd & _ & _ & ->). rewrite Hg. erewrite Hx; [|intros q r Hr|exact Hd]; [now rewrite !orb_false_r|].
    unfold def_particle in Hr. invb. eapply Hp; eauto.
  - destruct Hm as (_ & _ & ->). now rewrite Hg, orb_false_r.
Qed.

Lemma ex_clock : forall flip musl rate g sp, 0 < rate <= 1000 -> clock_ok (ex_p flip musl rate g sp).
Proof.
  intros. assert (1/1000 <= 1 / rate) by (unfold Rdiv; rewrite !Rmult_1_l; apply Rinv_le_contravar; lra).
  repeat split; cbn; try lra.
Qed.

(** A whole simulation: one frame at 1000 frames per second, two particles at rest. *)
Theorem ex_sim : forall svd uabs sch flip musl g sp, (forall k, valid_sched (sch k)) ->
  let p := ex_p flip musl 1000 g sp in
  exists af0, forall af fuel, (af0 <= af)%nat -> exists s1 s' ev,
    run svd uabs af p (sim_start p (ex_state p at_rest)) [(1/1000, 0)] s' /\ s' = tick p s1 /\
    advanceStep svd uabs af p (sch 0%nat) (sim_start p (ex_state p at_rest)) = Ok s1 /\
    simulate svd uabs (S fuel) af p true sch (ex_state p at_rest) = Ok (Finished, s', ev).
Proof.
  intros svd uabs sch flip musl g sp V p.
  destruct (ex_step svd uabs (sch 0%nat) flip musl 1000 g sp vzero vzero mzero mzero mzero mzero (V 0%nat)) as (af0 & H). fold p in H.
  exists af0. intros af fuel Ha. destruct (H af Ha) as (s1 & E & _). clear H.
  assert (Es : sim_start p (ex_state p at_rest) = ex_state p at_rest) by reflexivity.
  fold at_rest in E. rewrite <- Es in E.
  assert (Ex : s_exit s1 = false).
  { rewrite (elastic_exit _ (geolaws _ (or_introl eq_refl)) svd uabs af p (sch 0%nat) _ s1 2 (V 0%nat) (ex_wf p vzero vzero mzero mzero mzero mzero []) eq_refl E). reflexivity. }
  destruct (step_dt_grav svd uabs af p (sch 0%nat) _ s1 E) as (_ & _ & sp' & Em & Ed).
  destruct (step_clock svd uabs af p (sch 0%nat) _ s1 E) as (Et & Ef & _).
  assert (T0 : s_time (sim_start p (ex_state p at_rest)) = 0) by (cbn; lra).
  assert (Sp : sp' = 0).
  { apply max_speed_spec in Em. destruct Em as (_ & (v & Hv & ->) & _). destruct Hv as [<-|[<-|[]]]; unfold vnorm, vsqnorm, vdot; cbn; replace (0 / 1 * (0 / 1) + 0 / 1 * (0 / 1)) with 0 by lra; exact sqrt_0. }
  assert (Dt : s_dt s1 = 1/1000).
  { rewrite Ed, Sp, dt_of_spec. rewrite Rabs_R0. destruct (Rlt_dec _ 0); [lra|].
    rewrite final_R, frame_dt_R. rewrite T0. change (s_frame (sim_start p (ex_state p at_rest)) + 1)%Z with 1%Z.
    cbn [fps p ex_p end_frame min_dt].
    assert (Wv : 1/1000 <= dt_max p).
    { unfold dt_max, wave_speed. numR. cbn [cfl_elastic dx rho young p ex_p]. replace (1000 / 1000) with 1 by lra. rewrite sqrt_1. lra. }
    rewrite Rmin_right by (rewrite Rmin_right; lra). rewrite Rmax_left; lra. }
  assert (Tf : s_frame (tick p s1) = 1%Z).
  { destruct (tick_spec p s1) as (_ & _ & [[-> _]|[_ B]]); [now rewrite Ef|]. exfalso.
    rewrite frame_dt_R, Et, Ef, Dt in B. rewrite T0 in B. change (s_frame (sim_start p (ex_state p at_rest)) + 1)%Z with 1%Z in B.
    cbn [fps p ex_p min_dt] in B. lra. }
  assert (Te : at_end p (tick p s1) = true).
  { apply at_end_spec. left. destruct (tick_spec p s1) as (-> & _). rewrite final_R, frame_dt_R, Et, Dt.
    rewrite T0. cbn [fps p ex_p min_dt end_frame]. rewrite Rabs_right; lra. }
  exists s1, (tick p s1). eexists. split; [|split; [reflexivity|split; [exact E|]]].
  - rewrite <- Dt, <- T0. apply (run_step _ _ _ _ (sch 0%nat)); [exact E|constructor].
  - unfold simulate. cbn [negb]. change (model_ok p) with true. change (s_exit (ex_state p at_rest)) with false. cbn [negb]. cbv zeta.
    cbn [sim_loop]. change (s_frame (sim_start p (ex_state p at_rest)) <? end_frame p)%Z with true. cbn [sim_loop].
    rewrite E. cbn [bind]. rewrite Ex, Te. cbn [bind]. reflexivity.
Qed.
