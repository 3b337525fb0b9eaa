(** * PropCentre: C77, the centre of mass of an isolated body moves like a point mass. *)
From Coq Require Import Reals ZArith Lra Lia List Bool.
From Verif Require Import Num NumR Tools Lin Types Remesh Objects Transfer Rma Plastic Pbc Step Spec SpecStep SpecMech SpecMpm SpecBalance SpecCentre LinProofs ResProofs
  StencilProofs PloopProofs StepProofs StepMech StepField TimeProofs GradProofs PlateProofs ExStep ExMech PropStep CentreProofs.
Import ListNotations.
Local Open Scope R_scope.

(** Any material, any stresses, any transfer scheme. *)
Theorem C77_step : forall (G : Geo R), two_or_three G -> forall svd uabs af p sc s0 s1 n,
  0 < dx p -> 0 < particle_mass p -> valid_sched sc -> well_formed s0 n -> (0 < n)%nat -> free_space p s0 ->
  advanceStep svd uabs af p sc s0 = Ok s1 -> GridOk p (s_axes s1) -> regular_cloud p (s_axes s1) (p_x (s_p s0)) ->
  forall k, (k < dim)%nat ->
  (centre (s_p s1) k, mean_velocity (s_p s1) k) = projectile (centre (s_p s0) k) (mean_velocity (s_p s0) k) [(s_dt s1, vget (s_grav s1) k)].
Proof.
  intros G HG svd uabs af p sc s0 s1 n Hdx Hm V W Hn (F1 & F2 & F3 & F4) H GO Rg k Hk. pose proof (geolaws G HG) as GL.
  pose proof (C51_step_keeps_arrays G svd uabs af p sc s0 s1 n V W H) as W1.
  assert (L1 : length (p_x (s_p s1)) = n) by apply W1. assert (L0 : length (p_x (s_p s0)) = n) by apply W.
  destruct (wf_pack s0 n W) as (l & L & E & N & F). destruct (step_run svd uabs af p sc s0 s1 l V E N F H) as [Rn].
  assert (Nt : forall q, In q l -> no_tiny_weights p (s_axes s1) (q_x q)) by (intros q Hq; apply Rg; rewrite E; unfold pack; cbn [p_x]; now apply in_map).
  assert (Ol : spline p = Deg1 -> forall q, In q l -> off_lines p (s_axes s1) (q_x q)).
  { intros Hs q Hq. apply off_lines_iff. refine (proj2 (Rg (q_x q) _) Hs). rewrite E. unfold pack; cbn [p_x]. now apply in_map. }
  assert (Hi : INR n <> 0) by (apply not_0_INR; lia).
  unfold centre, mean_velocity. cbn [projectile]. rewrite L1, L0.
  rewrite (positions_total svd uabs af p sc s0 s1 l V Rn Hdx GO Hm F1 F2 F3 F4 Nt Ol E k Hk).
  rewrite (momentum svd uabs af p sc s0 s1 l V Rn Hdx GO Hm F1 F3 F4 Nt Ol E k Hk). rewrite L. f_equal; field; auto.
Qed.
Print Assumptions C77_step.

Theorem C77_run : forall (G : Geo R), two_or_three G -> forall svd uabs af p s0 r s2 n,
  0 < dx p -> 0 < particle_mass p -> exact_run svd uabs af p s0 r s2 -> well_formed s0 n -> (0 < n)%nat -> free_space p s0 ->
  forall k, (k < dim)%nat ->
  (centre (s_p s2) k, mean_velocity (s_p s2) k) =
  projectile (centre (s_p s0) k) (mean_velocity (s_p s0) k) (map (fun '(dt, grav, _, _) => (dt, vget grav k)) r).
Proof.
  intros G HG svd uabs af p s0 r s2 n Hdx Hm Rn W Hn Fs k Hk. induction Rn as [s|sc s0 s1 r s2 V E GO RC Rn IH]; [reflexivity|].
  assert (Tp : s_p (tick p s1) = s_p s1) by (unfold tick; cbv zeta; destruct (nltb _ _); reflexivity).
  assert (Tl : s_plates (tick p s1) = s_plates s1) by (unfold tick; cbv zeta; destruct (nltb _ _); reflexivity).
  pose proof (C51_step_keeps_arrays G svd uabs af p sc s0 s1 n V W E) as W1.
  assert (Fs1 : free_space p (tick p s1)).
  { destruct Fs as (F1 & F2 & F3 & F4). repeat split; auto. destruct (step_keep svd uabs af p sc s0 s1 E) as (_ & _ & _ & K & _). rewrite Tl, K, F4. reflexivity. }
  rewrite IH by (auto; now apply wf_tick). rewrite Tp. pose proof (C77_step G HG svd uabs af p sc s0 s1 n Hdx Hm V W Hn Fs E GO RC k Hk) as S.
  cbn [projectile map] in *. apply pair_equal_spec in S. destruct S as (-> & ->). reflexivity.
Qed.
Print Assumptions C77_run.

(** Constant gravity: a parabola, up to the error g/2 * sum of dt^2 of the time integration. *)
Theorem C77_parabola : forall (G : Geo R), two_or_three G -> forall svd uabs af p s0 r s2 n (g : TV),
  0 < dx p -> 0 < particle_mass p -> exact_run svd uabs af p s0 r s2 -> well_formed s0 n -> (0 < n)%nat -> free_space p s0 ->
  (forall dt grav axes l, In (dt, grav, axes, l) r -> grav = g) ->
  let T := Rsum (fun '(dt, _, _, _) => dt) r in
  forall k, (k < dim)%nat ->
  mean_velocity (s_p s2) k = mean_velocity (s_p s0) k + vget g k * T /\
  centre (s_p s2) k = centre (s_p s0) k + mean_velocity (s_p s0) k * T + vget g k * (T * T + Rsum (fun '(dt, _, _, _) => dt * dt) r) / 2.
Proof.
  intros G HG svd uabs af p s0 r s2 n g Hdx Hm Rn W Hn Fs Gc T k Hk.
  pose proof (C77_run G HG svd uabs af p s0 r s2 n Hdx Hm Rn W Hn Fs k Hk) as S.
  set (st := map (fun '(dt, grav, _, _) => (dt, vget grav k)) r) in *.
  assert (Fa : Forall (fun s => snd s = vget g k) st).
  { apply Forall_forall. intros s Hs. unfold st in Hs. apply in_map_iff in Hs. destruct Hs as ([[[dt grav] axes] l] & <- & Hi). cbn. now rewrite (Gc _ _ _ _ Hi). }
  rewrite (projectile_constant (vget g k) st _ _ Fa) in S. apply pair_equal_spec in S. destruct S as (S1 & S2).
  assert (E1 : Rsum fst st = T). { unfold st, T. rewrite Rsum_map. apply Rsum_ext. now intros [[[? ?] ?] ?] _. }
  assert (E2 : Rsum (fun s => fst s * fst s) st = Rsum (fun '(dt, _, _, _) => dt * dt) r). { unfold st. rewrite Rsum_map. apply Rsum_ext. now intros [[[? ?] ?] ?] _. }
  rewrite E1, E2 in S1. rewrite E1 in S2. split; assumption.
Qed.
Print Assumptions C77_parabola.

(** Two particles with different velocities and stresses. *)
Example C77_ex : forall svd uabs, let p := ex_p (95/100) true 1000 (e2 0 (-10)) false in
  let s0 := ex_state p (two_particles (e2 1 2) (e2 (-3) 4) mident mident (mkM2 5 1 1 7) (mkM2 (-2) 0 0 3)) in
  exists af s1, exact_run svd uabs af p s0 [(s_dt s1, e2 0 (-10), s_axes s1, particles (s_p s0))] (tick p s1) /\ free_space p s0 /\
  mean_velocity (s_p s1) 1 = 3 + s_dt s1 * -10 /\ centre (s_p s1) 1 = 1/2 + s_dt s1 * (3 + s_dt s1 * -10).
Proof.
  intros svd uabs p s0. destruct (ex_mech svd uabs rev_sched (95/100) true (e2 0 (-10)) (e2 1 2) (e2 (-3) 4) mident mident (mkM2 5 1 1 7) (mkM2 (-2) 0 0 3) rev_valid) as (af & s1 & E & Fs & GO & Rg & Hg).
  exists af, s1. split; [rewrite <- Hg; econstructor; eauto using rev_valid; constructor|]. split; [exact Fs|].
  pose proof (C77_step _ (or_introl eq_refl) svd uabs af _ rev_sched _ s1 2 (ex_dx _ _ _ _ _) (ex_mass _ _ _ _ _) rev_valid (ex_wf _ _ _ _ _ _ _ _) ltac:(lia) Fs E GO Rg 1%nat ltac:(cbn; lia)) as M.
  rewrite Hg in M. apply pair_equal_spec in M. destruct M as (M1 & M2). rewrite M1, M2. unfold centre, mean_velocity. cbn. split; field.
Qed.
