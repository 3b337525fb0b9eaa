(** * PropScene: C71, continued: what the shipped programs put into the scene. *)
From Coq Require Import Reals ZArith Lra Lia List Bool.
From Verif Require Import Num NumR Tools Lin Types Remesh Objects Transfer Rma Plastic Step Sampling Main Spec SpecStep SpecMech SpecPlastic SpecMaterial SpecTime LinProofs ResProofs PloopProofs StepProofs TimeProofs PlateProofs GuardProofs Examples ExStep PropStep PropTime PropMaterial PropDefined PropSample PropMain PlasticModels MpmProofs.
Import ListNotations.
Local Open Scope R_scope.

(** An invariant of steps and of the clock holds in all frames. *)
Lemma files_inv : forall (G : Geo R) svd uabs (I : St R -> Prop) fuel af p sch s0 st s1 ev,
  (forall k s s1, I s -> advanceStep svd uabs af p (sch k) s = Ok s1 -> I s1) -> (forall s, I s -> I (tick p s)) -> I (sim_start p s0) ->
  model_ok p = true -> s_exit s0 = false -> save_sim p = true ->
  simulate svd uabs fuel af p true sch s0 = Ok (st, s1, ev) ->
  (exists rest, particle_files ev = sim_start p s0 :: rest) /\ forall s, In s (particle_files ev) -> I s.
Proof.
  intros G svd uabs I fuel af p sch s0 st s1 ev B1 B2 B0 Mo Ex Sv H. unfold simulate in H. rewrite Mo, Ex in H. cbn [negb] in H. cbv zeta in H.
  apply bind_Ok in H. destruct H as ([[st1 s2] ev1] & L & H). apply Ok_inj in H. apply pair_equal_spec in H. destruct H as (_ & H). rewrite Sv in H.
  destruct (loop_inv svd uabs I af p sch B1 B2 _ _ _ _ _ _ B0 L) as (_ & Fo). subst ev. cbn [fst snd app]. split.
  - eexists. unfold particle_files. cbn [flat_map app]. reflexivity.
  - intros s Hs. apply in_files in Hs. destruct Hs as [Hs|[Hs|Hs]]; [discriminate|congruence|]. apply in_app_or in Hs. rewrite Forall_forall in Fo.
    destruct Hs as [Hs|Hs]; [exact (Fo _ Hs)|]. destruct st1; cbn in Hs; try contradiction. destruct Hs as [Hs|[]]. discriminate.
Qed.

(** The collapse: the first frame shows the sampled points, moved to the middle and half a cell above the
    ground, at rest, undeformed and without stress; in every frame gravity points down with 9.81 and there
    is one obstacle, a ground at height zero that holds what touches it and does not move. *)
Theorem C71_collapse_scene : forall G, two_or_three G -> forall deg junk svd uabs fuel af sch (samples : list TV) st s1 ev,
  samples <> [] -> collapse_main svd uabs tan deg junk fuel af sch samples = Ok (st, s1, ev) ->
  (exists s rest, particle_files ev = s :: rest /\ s_time s = 0 /\
     length (p_x (s_p s)) = length samples /\
     (forall i x, nth_error samples i = Some x -> exists x', nth_error (p_x (s_p s)) i = Some x' /\
        vget x' 0 = vget x 0 - 1/2 /\ vget x' 1 = vget x 1 + dx (collapse_par tan deg junk samples) / 2 /\ forall k, (2 <= k < dim)%nat -> vget x' k = vget x k) /\
     (forall v, In v (p_v (s_p s)) -> v = vzero) /\ (forall F, In F (p_F (s_p s)) -> F = mident) /\ (forall t, In t (p_tau (s_p s)) -> t = mzero)) /\
  forall s, In s (particle_files ev) ->
    vget (s_grav s) 0 = 0 /\ vget (s_grav s) 1 = -981/100 /\ (forall k, (2 <= k < dim)%nat -> vget (s_grav s) k = 0) /\
    exists ground, s_plates s = [ground] /\ pl_bc ground = NoSlip /\ pl_v ground = vzero /\
      forall X, -1000000000000000 < vget X 0 < 1000000000000000 -> (plate_inside ground X = true <-> vget X 1 <= 0).
Proof.
  intros G HG deg junk svd uabs fuel af sch samples st s1 ev Hn H. pose proof (geolaws G HG) as GL. unfold collapse_main in H.
  set (p := collapse_par tan deg junk samples) in *. set (s0 := collapse_state tan deg junk samples) in *.
  destruct (collapse_sample HG deg junk samples Hn) as (_ & _ & _ & _ & Px & (Pc & Pv & PF & Pt & PB & Ph)).
  set (ground := mkPlate 0 pbottom NoSlip 0 (-1000000000000000) 1000000000000000 vzero vzero 1 0 : Plate R).
  set (I := fun s : St R => s_grav s = gravity0 p /\ s_plates s = [ground]).
  assert (D2 : (2 <= dim)%nat) by (destruct HG as [->| ->]; cbn; lia).
  assert (V0 : forall k, (k < dim)%nat -> vget (vzero : TV) k = 0) by (intros; autorewrite with geo; auto).
  destruct (files_inv G svd uabs I fuel af p sch s0 st s1 ev) as ((rest & Er) & K); auto.
  - intros k s s' (Ig & Ip) E. destruct (step_dt_grav svd uabs af p (sch k) s s' E) as (_ & Eg & _). destruct (step_clock svd uabs af p (sch k) s s' E) as (_ & _ & Ep & _).
    split; [rewrite Eg; exact Ig|]. rewrite Ep, Ip. cbn [map]. f_equal. unfold plate_move, ground. cbn [pl_pos pl_type pl_bc pl_fric pl_lower pl_upper pl_v pl_v0 pl_vmin pl_load]. cbv zeta.
    assert (Z : forall f : R, vscale (vzero : TV) f = vzero) by (intros f; apply vext; intros j Hj; autorewrite with geo; auto; rewrite ?V0; auto; numR; ring).
    rewrite Z, !V0 by lia. numR. f_equal; ring.
  - intros s (Ig & Ip). split; unfold tick; cbv zeta; destruct (nltb _ _); assumption.
  - split; [reflexivity|]. unfold s0, collapse_state, sim_start, initial_state, new_plate. cbn [s_plates]. unfold ground. repeat f_equal; rewrite nofZ_R; reflexivity.
  - split.
    + exists (sim_start p s0), rest. split; [exact Er|]. split; [unfold sim_start; cbn [s_time]; rewrite nofZ_R; reflexivity|].
      assert (Ex : p_x (s_p (sim_start p s0)) = map (collapse_x p) samples).
      { unfold s0, collapse_state, sim_start, initial_state, fill_muI. change (use_mibf p) with false. cbn [s_p with_x p_x]. now rewrite Px. }
      split; [rewrite Ex; apply map_length|]. split.
      * intros i x Hi. exists (collapse_x p x). split; [rewrite Ex; now apply map_nth_error|]. unfold collapse_x. cbv zeta. rewrite !nofQ_R.
        assert (Lp : Lx p = 1) by (unfold p, collapse_par, collapse_before; cbn [Lx]; rewrite nofZ_R; reflexivity). rewrite Lp.
        autorewrite with geo; try lia. cbn [Nat.eqb]. numR. split; [lra|]. split; [lra|].
        intros k Hk. autorewrite with geo; try lia. destruct k as [|[|k]]; try lia. reflexivity.
      * unfold s0, collapse_state, sim_start, initial_state, fill_muI. change (use_mibf p) with false. cbn [s_p with_x p_v p_F p_tau]. auto.
    + intros s Hs. destruct (K s Hs) as (Eg & Ep). rewrite Eg.
      assert (E0 : gravity0 p = vset (vset vzero 0 0) 1 (-981/100)).
      { unfold p, collapse_par, collapse_before. cbn [gravity0]. rewrite deg_R, nofZ_R, !nofQ_R. numR. unfold Rdiv. rewrite !Rmult_0_l, sin_0, cos_0. f_equal; [f_equal|]; lra. }
      rewrite E0. autorewrite with geo; try lia. cbn [Nat.eqb]. split; [reflexivity|]. split; [reflexivity|]. split.
      { intros k Hk. autorewrite with geo; try lia. destruct k as [|[|k]]; try lia. cbn [Nat.eqb]. first [reflexivity | apply V0; lia]. }
      exists ground. split; [exact Ep|]. split; [reflexivity|]. split; [reflexivity|]. intros X HX. unfold plate_inside, ground. cbn [pl_type pl_upper pl_lower pl_pos]. cbv zeta. rewrite nofZ_R. numR.
      destruct (Rltb_spec (vget X 0) 1000000000000000); [|lra]. destruct (Rltb_spec (-1000000000000000) (vget X 0)); [|lra]. destruct (Rleb_spec (vget X 1 - 0) 0); cbn; split; intros; try lra; auto; discriminate.
Qed.
Print Assumptions C71_collapse_scene.

(** The cube: the first frame shows the sampled points around the origin, turning about it with angular
    velocity 1 while moving with velocity (1/2, 1/2), undeformed and without stress; there is neither
    gravity nor an obstacle in any frame. *)
Theorem C71_rotating_scene : forall G, two_or_three G -> forall deg junk svd uabs fuel af sch (samples : list TV) st s1 ev,
  samples <> [] -> rotating_main svd uabs tan deg junk fuel af sch samples = Ok (st, s1, ev) ->
  (exists s rest, particle_files ev = s :: rest /\ s_time s = 0 /\
     length (p_x (s_p s)) = length samples /\
     (forall i x, nth_error samples i = Some x -> exists x' v, nth_error (p_x (s_p s)) i = Some x' /\ nth_error (p_v (s_p s)) i = Some v /\
        vget x' 0 = vget x 0 - 1/2 /\ vget x' 1 = vget x 1 - 1/2 /\ vget v 0 = 1/2 - vget x' 1 /\ vget v 1 = 1/2 + vget x' 0 /\
        forall k, (2 <= k < dim)%nat -> vget x' k = vget x k /\ vget v k = 0) /\
     (forall F, In F (p_F (s_p s)) -> F = mident) /\ (forall t, In t (p_tau (s_p s)) -> t = mzero)) /\
  forall s, In s (particle_files ev) -> s_grav s = vzero /\ s_plates s = [].
Proof.
  intros G HG deg junk svd uabs fuel af sch samples st s1 ev Hn H. pose proof (geolaws G HG) as GL. unfold rotating_main in H.
  set (p := rotating_par tan deg junk samples) in *. set (s0 := rotating_state tan deg junk samples) in *.
  destruct (rotating_sample HG deg junk samples Hn) as (_ & _ & _ & Px & (Pc & Pv & PF & Pt & PB & Ph)).
  set (I := fun s : St R => s_grav s = vzero /\ s_plates s = []).
  assert (D2 : (2 <= dim)%nat) by (destruct HG as [->| ->]; cbn; lia).
  assert (V0 : forall k, (k < dim)%nat -> vget (vzero : TV) k = 0) by (intros; autorewrite with geo; auto).
  destruct (files_inv G svd uabs I fuel af p sch s0 st s1 ev) as ((rest & Er) & K); auto.
  - intros k s s' (Ig & Ip) E. destruct (step_dt_grav svd uabs af p (sch k) s s' E) as (_ & Eg & _). destruct (step_clock svd uabs af p (sch k) s s' E) as (_ & _ & Ep & _).
    split; [rewrite Eg; exact Ig|]. rewrite Ep, Ip. reflexivity.
  - intros s (Ig & Ip). split; unfold tick; cbv zeta; destruct (nltb _ _); assumption.
  - split; reflexivity.
  - split; [|exact K]. exists (sim_start p s0), rest. split; [exact Er|]. split; [unfold sim_start; cbn [s_time]; rewrite nofZ_R; reflexivity|].
    assert (Ex : p_x (s_p (sim_start p s0)) = map (rotating_x p) samples).
    { unfold s0, rotating_state, sim_start, initial_state, fill_muI. change (use_mibf p) with false. cbn [s_p p_x]. now rewrite Px. }
    assert (Ev : p_v (s_p (sim_start p s0)) = map (fun xv => rotating_v (fst xv) (snd xv)) (combine (map (rotating_x p) samples) (p_v (sa_p (rotating_sampled tan deg junk samples))))).
    { unfold s0, rotating_state, sim_start, initial_state, fill_muI. change (use_mibf p) with false. cbn [s_p p_v]. now rewrite Px. }
    split; [rewrite Ex; apply map_length|]. split.
    + intros i x Hi. destruct Pc as [_ Lv _ _ _ _ _ _].
      assert (Li : (i < length samples)%nat) by (apply nth_error_Some; congruence).
      destruct (nth_error (p_v (sa_p (rotating_sampled tan deg junk samples))) i) as [v0|] eqn:E0; [|apply nth_error_None in E0; lia].
      assert (v0 = vzero) by (apply Pv; eapply nth_error_In; eauto). subst v0.
      exists (rotating_x p x), (rotating_v (rotating_x p x) vzero). split; [rewrite Ex; now apply map_nth_error|]. split.
      { rewrite Ev. erewrite map_nth_error; [|apply nth_error_combine; [apply map_nth_error; exact Hi|exact E0]]. reflexivity. }
      assert (Lp : Lx p = 1) by (unfold p, rotating_par, rotating_before; cbn [Lx]; rewrite nofZ_R; reflexivity).
      assert (Lq : Ly p = 1) by (unfold p, rotating_par, rotating_before; cbn [Ly]; rewrite nofZ_R; reflexivity).
      unfold rotating_v, rotating_x. cbv zeta. rewrite Lp, Lq, !nofQ_R, !nofZ_R.
      autorewrite with geo; try lia. cbn [Nat.eqb]. numR. split; [lra|]. split; [lra|]. split; [lra|]. split; [lra|].
      intros k Hk. autorewrite with geo; try lia. destruct k as [|[|k]]; try lia. cbn [Nat.eqb]. split; [reflexivity|]. first [reflexivity | apply V0; lia].
    + unfold s0, rotating_state, sim_start, initial_state, fill_muI. change (use_mibf p) with false. cbn [s_p p_F p_tau]. auto.
Qed.
Print Assumptions C71_rotating_scene.

(** The settings the two programs run with: no MUSL, no periodic boundary, no reinsertion of particles, constant
    gravity, no other obstacles; half a cell per step; APIC-FLIP blends 0.95 and 1; the material constants. *)
Theorem C71_shipped_settings : forall G deg junk (samples : list (@TV R G)),
  let c := collapse_par tan deg junk samples in let r := rotating_par tan deg junk samples in
  (forall p, p = c \/ p = r -> use_musl p = false /\ use_pbc p = false /\ change_pos p = false /\ gravity_special p = false /\ use_mibf p = false /\
     objects p = [] /\ spline p = deg /\ save_sim p = true /\ save_grid p = true /\ end_frame p = 20%Z /\ elastic_model p = Hencky /\
     cfl p = 1/2 /\ cfl_elastic p = 1/2 /\ min_dt p = 1/100000000000000 /\ young p = 1000000 /\ nu p = 3/10) /\
  fps c = 10 /\ flip_ratio c = -95/100 /\ rho c = 1000 /\ plastic_model c = DPVisc /\ q_cohesion c = 0 /\ visc_time c = 0 /\ use_pradhana c = true /\
  fps r = 1 /\ flip_ratio r = -1 /\ rho r = 1550 /\ plastic_model r = NoPlasticity.
Proof.
  intros G deg junk samples c r.
  split; [intros p [->| ->]|]; do 20 (try (split; [try reflexivity|])); try reflexivity;
    match goal with |- ?a = _ => let b := eval hnf in a in change a with b | _ => idtac end; try reflexivity; lra.
Qed.
Print Assumptions C71_shipped_settings.
