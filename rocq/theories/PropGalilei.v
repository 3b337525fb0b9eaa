(** * PropGalilei: C79, a step does not notice a uniform motion of the body. *)
From Coq Require Import Reals ZArith Lra Lia List Bool.
From Verif Require Import Num NumR Tools Lin Types Remesh Objects Transfer Rma Plastic Pbc Step Spec SpecStep SpecMech SpecMpm SpecGalilei LinProofs ResProofs
  StencilProofs PloopProofs StepProofs StepMech StepField TimeProofs GradProofs PlateProofs PlasticModels MpmProofs BalanceProofs TwinProofs GalileiProofs ExStep ExMech PropStep.
Import ListNotations.
Local Open Scope R_scope.

Lemma nth_ext_err : forall X (l l' : list X), length l = length l' -> (forall i a b, nth_error l i = Some a -> nth_error l' i = Some b -> a = b) -> l = l'.
Proof.
  intros X l. induction l as [|x l IH]; intros [|y l'] L H; try discriminate; auto. f_equal; [now apply (H 0%nat)|].
  apply IH; [cbn in L; lia|]. intros i a b. apply (H (S i)).
Qed.
Lemma map_eq_at : forall X Y Z (f : X -> Z) (f' : Y -> Z) l l', length l = length l' -> (forall i a b, nth_error l i = Some a -> nth_error l' i = Some b -> f' b = f a) -> map f' l' = map f l.
Proof.
  intros X Y Z f f' l. induction l as [|x l IH]; intros [|y l'] L H; try discriminate; auto. cbn [map]. f_equal; [now apply (H 0%nat)|].
  apply IH; [cbn in L; lia|]. intros i a b. apply (H (S i)).
Qed.

(** Any material, stresses and transfer scheme, with or without MUSL, any two thread schedules. *)
Theorem C79_step : forall (G : Geo R), two_or_three G -> forall svd uabs af p sc sc' (U : TV) s0 s1 s1' n,
  0 < dx p -> 0 < particle_mass p -> valid_sched sc -> valid_sched sc' -> well_formed s0 n -> free_space p s0 ->
  advanceStep svd uabs af p sc s0 = Ok s1 -> GridOk p (s_axes s1) -> regular_cloud p (s_axes s1) (p_x (s_p s0)) ->
  advanceStep svd uabs af p sc' (set_off U s0) = Ok s1' -> s_dt s1' = s_dt s1 ->
  p_x (s_p s1') = map (fun x => vadd x (lscale (s_dt s1) U)) (p_x (s_p s1)) /\
  p_v (s_p s1') = map (fun v => vadd v U) (p_v (s_p s1)) /\
  p_F (s_p s1') = p_F (s_p s1) /\ p_tau (s_p s1') = p_tau (s_p s1) /\ p_hist (s_p s1') = p_hist (s_p s1) /\
  (flip_ratio p < 0 -> p_B (s_p s1') = p_B (s_p s1)).
Proof.
  intros G HG svd uabs af p sc sc' U s0 s1 s1' n Hdx Hm V V' W (F1 & F2 & F3 & F4) H GO RC H' Hdt. pose proof (geolaws G HG) as GL.
  destruct (wf_pack s0 n W) as (l & L & E & N & F). destruct (step_run svd uabs af p sc s0 s1 l V E N F H) as [Rn].
  set (bq := fun q : P1 R => mkP1 (q_x q) (vadd (q_v q) U) (q_pic q) (q_flip q) (q_h q) (q_F q) (q_B q) (q_tau q)).
  assert (E' : s_p (set_off U s0) = pack (map bq l)) by (unfold set_off; cbv zeta; cbn [s_p with_p]; rewrite E; unfold pack; cbn [p_x p_v p_pic p_flip p_hist p_F p_B p_tau]; rewrite !map_map; reflexivity).
  assert (W' : well_formed (set_off U s0) n). { destruct W as (C & Nn & Fi). split; [|auto]. rewrite E'. rewrite <- L, <- (map_length bq). apply pack_consistent. }
  assert (Ln : length (map bq l) = length l) by apply map_length.
  destruct (step_run svd uabs af p sc' (set_off U s0) s1' (map bq l) V' E' ltac:(rewrite Ln; exact N) ltac:(rewrite Ln; exact F) H') as [Rn'].
  assert (Ax : s_axes s1' = s_axes s1).
  { destruct (ru_remesh _ _ _ _ _ _ _ _ Rn) as (r & Er & Ea & _). destruct (ru_remesh _ _ _ _ _ _ _ _ Rn') as (r' & Er' & Ea' & _).
    rewrite (ru_saxes _ _ _ _ _ _ _ _ Rn), (ru_saxes _ _ _ _ _ _ _ _ Rn'), <- Ea, <- Ea'. clear - F1 Er Er'. unfold remesh, set_off in *. rewrite F1 in *. cbv zeta in *. cbn [with_dt with_p s_step s_p s_mesh p_x] in *.
    destruct (s_step s0 =? 0)%Z.
    - destruct (remeshFixedInit af p 2 (p_x (s_p s0))) as [am| |]; cbn [bind] in *; try discriminate. apply Ok_inj in Er, Er'. subst r r'. reflexivity.
    - destruct (remeshFixedCont af p (p_x (s_p s0)) (s_mesh s0)) as [am| |]; cbn [bind] in *; try discriminate. apply Ok_inj in Er, Er'. subst r r'. reflexivity. }
  assert (Gr : s_grav s1' = s_grav s1).
  { pose proof (ru_dt _ _ _ _ _ _ _ _ Rn) as D. pose proof (ru_dt _ _ _ _ _ _ _ _ Rn') as D'. unfold updateDt in D, D'. apply bind_Ok in D. destruct D as (sp & _ & D). apply bind_Ok in D'. destruct D' as (sp' & _ & D').
    apply Ok_inj in D, D'. apply (f_equal s_grav) in D. apply (f_equal s_grav) in D'. cbn [with_dt s_grav] in D, D'. rewrite <- D, <- D'. reflexivity. }
  assert (GO' : GridOk p (s_axes s1')) by (now rewrite Ax).
  assert (RC' : regular_cloud p (s_axes s1') (p_x (s_p (set_off U s0)))) by (rewrite Ax; exact RC).
  destruct (step_laws svd uabs af p sc s0 s1 n Hdx Hm F1 V W H GO RC) as (g & A1 & A2 & A3).
  destruct (step_laws svd uabs af p sc' (set_off U s0) s1' n Hdx Hm F1 V' W' H' GO' RC') as (g' & B1 & B2 & B3).
  rewrite Ax, Gr, Hdt, E', particles_pack in *. rewrite E, particles_pack in A1, A2, A3. change (s_plates (set_off U s0)) with (s_plates s0) in B1. rewrite F4 in A1, B1.
  set (l1 := particles (s_p s1)) in *. set (l1' := particles (s_p s1')) in *.
  pose proof (C51_step_keeps_arrays G svd uabs af p sc s0 s1 n V W H) as W1. pose proof (C51_step_keeps_arrays G svd uabs af p sc' (set_off U s0) s1' n V' W' H') as W1'.
  destruct (wf_pack s1 n W1) as (k1 & K1 & P1 & _). destruct (wf_pack s1' n W1') as (k1' & K1' & P1' & _).
  assert (El : l1 = k1) by (unfold l1; rewrite P1; apply particles_pack). assert (El' : l1' = k1') by (unfold l1'; rewrite P1'; apply particles_pack).
  assert (FB : Forall2 (boosted U) l (map bq l)).
  { clear. induction l; constructor; auto. repeat split. }
  pose proof (r_cov svd uabs af p sc s0 s1 l Rn Hdx GO) as Cov.
  assert (Ol : spline p = Deg1 -> forall q, In q l -> off_lines p (s_axes s1) (q_x q)).
  { intros Hs q Hq. apply off_lines_iff. refine (proj2 (RC (q_x q) _) Hs). rewrite E. unfold pack; cbn [p_x]. now apply in_map. }
  assert (LL : length l1 = length l1') by (rewrite El, El'; lia).
  pose proof (kin_boost svd uabs p Hdx Hm F3 U (s_dt s1) (s_grav s1) (s_axes s1) l (map bq l) l1 l1' g g' (s_nodes s1) (s_nodes s1') GO Cov FB A1 B1 A3 B3) as KB.
  pose proof (strain_boost svd uabs p Hdx Hm F3 U (s_dt s1) (s_grav s1) (s_axes s1) l (map bq l) l1 l1' g g' (s_nodes s1) (s_nodes s1') GO Cov Ol FB A1 B1 A2 B2 A3 B3) as SB.
  rewrite P1, P1', <- El, <- El'. unfold pack. cbn [p_x p_v p_F p_tau p_hist p_B]. rewrite !map_map. repeat split.
  - apply map_eq_at; auto. intros i a b Ha Hb. destruct (KB i a b Ha Hb) as (_ & _ & K). apply vext. intros k Hk. rewrite (K F2 k Hk), vget_add, vget_lscale by auto. reflexivity.
  - apply map_eq_at; auto. intros i a b Ha Hb. destruct (KB i a b Ha Hb) as (K & _). apply vext. intros k Hk. rewrite (K k Hk), vget_add by auto. reflexivity.
  - apply map_eq_at; auto. intros i a b Ha Hb. apply (SB i a b Ha Hb).
  - apply map_eq_at; auto. intros i a b Ha Hb. apply (SB i a b Ha Hb).
  - apply map_eq_at; auto. intros i a b Ha Hb. apply (SB i a b Ha Hb).
  - intros Hf. apply map_eq_at; auto. intros i a b Ha Hb. apply (KB i a b Ha Hb). exact Hf.
Qed.
Print Assumptions C79_step.

(** The time step is the same when the fastest particle is as fast as before (the CFL condition is the only one that sees velocities). *)
Theorem C79_time_step : forall (G : Geo R) svd uabs af p sc sc' (U : TV) s0 s1 s1',
  advanceStep svd uabs af p sc s0 = Ok s1 -> advanceStep svd uabs af p sc' (set_off U s0) = Ok s1' ->
  max_speed (p_v (s_p (set_off U s0))) = max_speed (p_v (s_p s0)) -> s_dt s1' = s_dt s1.
Proof.
  intros G svd uabs af p sc sc' U s0 s1 s1' H H' M.
  assert (D : forall sc s s1, advanceStep svd uabs af p sc s = Ok s1 -> exists sp, max_speed (p_v (s_p s)) = Ok sp /\ s_dt s1 = dt_of p sp (s_time s) (s_frame s)).
  { clear. intros sc s s1 H. apply (step_dt_grav svd uabs af p sc s s1 H). }
  destruct (D _ _ _ H) as (sp & A & ->). destruct (D _ _ _ H') as (sp' & A' & ->). rewrite M, A in A'. apply Ok_inj in A'. now subst.
Qed.
Print Assumptions C79_time_step.

(** Two stressed particles, one moving up and one down, set off backwards: (1,2),(1,-2) become (-1,2),(-1,-2). *)
Example C79_ex : forall svd uabs musl, let p := ex_p (-1/2) musl 1000 (e2 0 (-10)) false in
  let s0 := ex_state p (two_particles (e2 1 2) (e2 1 (-2)) mident mident (mkM2 5 1 1 7) (mkM2 (-2) 0 0 3)) in
  exists af s1 s1', advanceStep svd uabs af p rev_sched s0 = Ok s1 /\ GridOk p (s_axes s1) /\ regular_cloud p (s_axes s1) (p_x (s_p s0)) /\ free_space p s0 /\ well_formed s0 2 /\
  advanceStep svd uabs af p rev_sched (set_off (e2 (-2) 0) s0) = Ok s1' /\ s_dt s1' = s_dt s1 /\ p_F (s_p s1') = p_F (s_p s1).
Proof.
  intros svd uabs musl p s0. set (U := e2 (-2) 0).
  destruct (ex_step_with svd uabs rev_sched (-1/2) musl 1000 (e2 0 (-10)) false (e2 1 2) (e2 1 (-2)) mident mident (mkM2 5 1 1 7) (mkM2 (-2) 0 0 3) [] rev_valid) as (a1 & H1).
  destruct (ex_step_with svd uabs rev_sched (-1/2) musl 1000 (e2 0 (-10)) false (vadd (e2 1 2) U) (vadd (e2 1 (-2)) U) mident mident (mkM2 5 1 1 7) (mkM2 (-2) 0 0 3) [] rev_valid) as (a2 & H2).
  destruct (H1 (Nat.max a1 a2) (Nat.le_max_l _ _)) as (s1 & E & GO & IG). destruct (H2 (Nat.max a1 a2) (Nat.le_max_r _ _)) as (s1' & E' & _).
  exists (Nat.max a1 a2), s1, s1'. assert (Wf : well_formed s0 2) by apply ex_wf.
  assert (RC : regular_cloud p (s_axes s1) (p_x (s_p s0))) by (exact (ex_regular svd uabs _ rev_sched (-1/2) musl 1000 (e2 0 (-10)) false (two_particles (e2 1 2) (e2 1 (-2)) mident mident (mkM2 5 1 1 7) (mkM2 (-2) 0 0 3)) s1 [] eq_refl (ex_wf _ _ _ _ _ _ _ _) rev_valid E GO IG)).
  assert (Fs : free_space p s0) by (repeat split).
  assert (E2 : advanceStep svd uabs (Nat.max a1 a2) p rev_sched (set_off U s0) = Ok s1') by exact E'.
  assert (D : s_dt s1' = s_dt s1).
  { apply (C79_time_step _ svd uabs _ p rev_sched rev_sched U s0 s1 s1' E E2).
    assert (M : forall v w : @TV R (Geo2 R), vsqnorm v = 5 -> vsqnorm w = 5 -> max_speed [v; w] = Ok (sqrt 5)).
    { intros v w Hv Hw. unfold max_speed. cbn [fold_left]. unfold vnorm. destruct (nltb _ _); [rewrite Hw|rewrite Hv]; reflexivity. }
    change (max_speed [vadd (e2 1 2) U; vadd (e2 1 (-2)) U] = max_speed [e2 1 2; e2 1 (-2)]).
    rewrite !M; auto; unfold U; cbn; numR; ring. }
  do 7 (split; [assumption|]). apply (C79_step _ (or_introl eq_refl) svd uabs (Nat.max a1 a2) p rev_sched rev_sched U s0 s1 s1' 2 (ex_dx _ _ _ _ _) (ex_mass _ _ _ _ _) rev_valid rev_valid Wf Fs E GO RC E2 D).
Qed.
