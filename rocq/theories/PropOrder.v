(** * PropOrder: C75, results do not depend on the thread schedule or the order of the particles. *)
From Coq Require Import Reals ZArith Lra Lia List Bool Permutation.
From Verif Require Import Num NumR Tools Lin Types Remesh Objects Transfer Rma Plastic Pbc Step Spec SpecStep SpecOrder LinProofs ResProofs PloopProofs StepProofs PlasticModels TimeProofs ExStep OrderProofs OrderSim.
Import ListNotations.
Local Open Scope R_scope.

Theorem C75_step : forall G, two_or_three G -> forall svd uabs af p sc sc' s0 s1 n pi,
  valid_sched sc -> valid_sched sc' -> well_formed s0 n -> Permutation pi (seq 0 n) ->
  advanceStep svd uabs af p sc s0 = Ok s1 -> GridOk p (s_axes s1) ->
  advanceStep svd uabs af p sc' (reorder_state pi s0) = Ok (reorder_state pi s1).
Proof. intros G HG. pose proof (geolaws G HG) as GL. exact step_any. Qed.
Print Assumptions C75_step.

(** Whole simulations: the same end, the same final state and the same output files, up to the order
    of the particles; with [pi = seq 0 n] two runs differ only in their schedules. *)
Theorem C75_simulation : forall G, two_or_three G -> forall svd uabs fuel af p init sch sch' s n pi stop s1 ev,
  (forall k, valid_sched (sch k)) -> (forall k, valid_sched (sch' k)) -> well_formed s n -> Permutation pi (seq 0 n) ->
  grids_fit svd uabs af p sch (sim_start p s) ->
  simulate svd uabs fuel af p init sch s = Ok (stop, s1, ev) ->
  simulate svd uabs fuel af p init sch' (reorder_state pi s) = Ok (stop, reorder_state pi s1, map (reorder_output pi) ev).
Proof.
  intros G HG svd uabs fuel af p init sch sch' s n pi stop s1 ev V V' W Pi GF H. pose proof (geolaws G HG) as GL. unfold simulate in *.
  destruct init; cbn [negb] in *; [|injection H as <- <- <-; reflexivity]. destruct (model_ok p); cbn [negb] in *; [|injection H as <- <- <-; reflexivity].
  change (s_exit (reorder_state pi s)) with (s_exit s). destruct (s_exit s); [injection H as <- <- <-; reflexivity|].
  rewrite start_reorder. apply bind_Ok in H. destruct H as (((st & s2) & ev2) & El & H).
  rewrite (loop_any svd uabs af p sch sch' (sim_start p s) n pi V V' Pi GF fuel 0 (sim_start p s) st s2 ev2); auto; [|constructor|apply wf_start; auto]. cbn [bind].
  apply (f_equal (fun r => match r with Ok x => x | _ => (stop, s1, ev) end)) in H. apply pair_equal_spec in H. destruct H as (H & <-). apply pair_equal_spec in H. destruct H as (<- & <-).
  change (s_step (reorder_state pi s2)) with (s_step s2). rewrite !map_app. destruct (save_sim p), st; reflexivity.
Qed.
Print Assumptions C75_simulation.

(** Two runs of the same program. *)
Theorem C75_schedule : forall G, two_or_three G -> forall svd uabs fuel af p init sch sch' s n stop s1 ev,
  (forall k, valid_sched (sch k)) -> (forall k, valid_sched (sch' k)) -> well_formed s n -> grids_fit svd uabs af p sch (sim_start p s) ->
  simulate svd uabs fuel af p init sch s = Ok (stop, s1, ev) -> simulate svd uabs fuel af p init sch' s = Ok (stop, s1, ev).
Proof.
  intros G HG svd uabs fuel af p init sch sch' s n stop s1 ev V V' W GF H. pose proof (geolaws G HG) as GL.
  pose proof (C75_simulation G HG svd uabs fuel af p init sch sch s n (seq 0 n) stop s1 ev V V W (Permutation_refl _) GF H) as H1.
  pose proof (C75_simulation G HG svd uabs fuel af p init sch sch' s n (seq 0 n) stop s1 ev V V' W (Permutation_refl _) GF H) as H2.
  rewrite (reorder_id _ _ W) in H1, H2. congruence.
Qed.
Print Assumptions C75_schedule.

(** Two particles, exchanged, with the threads in reverse order: the hypotheses hold and the run ends. *)
Example C75_ex : forall svd uabs flip musl g, let p := ex_p flip musl 1000 g false in
  valid_sched seq_sched /\ valid_sched rev_sched /\ well_formed (ex_state p at_rest) 2 /\ Permutation [1; 0]%nat (seq 0 2) /\
  p_x (s_p (reorder_state [1; 0]%nat (ex_state p at_rest))) = [e2 (-1/2) (3/4); e2 (1/2) (1/4)] /\
  exists af, grids_fit svd uabs af p (fun _ => seq_sched) (sim_start p (ex_state p at_rest)) /\
    exists s1 ev, simulate svd uabs 1 af p true (fun _ => seq_sched) (ex_state p at_rest) = Ok (Finished, s1, ev).
Proof.
  intros svd uabs flip musl g p. split; [apply seq_valid|]. split; [apply rev_valid|]. split; [apply ex_wf|]. split; [apply perm_swap|]. split; [reflexivity|].
  destruct (ex_sim svd uabs (fun _ => seq_sched) flip musl g false (fun _ => seq_valid)) as (af1 & H1).
  destruct (ex_step svd uabs seq_sched flip musl 1000 g false vzero vzero mzero mzero mzero mzero seq_valid) as (af2 & H2).
  exists (Nat.max af1 af2). destruct (H1 (Nat.max af1 af2) 0%nat ltac:(lia)) as (s1 & s' & ev & _ & Es & E & Sm). destruct (H2 (Nat.max af1 af2) ltac:(lia)) as (t1 & E2 & Gk & _).
  split; [|exists s', ev; exact Sm].
  assert (Et : t1 = s1) by (apply Ok_inj; rewrite <- E, <- E2; reflexivity). subst t1.
  assert (Dn : at_end p (tick p s1) = true \/ (end_frame p <= s_frame (tick p s1))%Z).
  { unfold simulate in Sm. cbn [negb] in Sm. change (model_ok p) with true in Sm. change (s_exit (ex_state p at_rest)) with false in Sm. cbn [negb sim_loop] in Sm.
    change (s_frame (sim_start p (ex_state p at_rest)) <? end_frame p)%Z with true in Sm. cbn [sim_loop] in Sm. fold p in E, Sm. cbv beta zeta in Sm. rewrite E in Sm. cbn [bind] in Sm.
    destruct (s_exit s1); [discriminate|]. destruct (at_end p (tick p s1)); [now left|]. right. destruct (s_frame (tick p s1) <? end_frame p)%Z eqn:Fr; [discriminate|]. now apply Z.ltb_ge in Fr. }
  assert (One : forall k s, reached svd uabs (Nat.max af1 af2) p (fun _ => seq_sched) (sim_start p (ex_state p at_rest)) k s ->
    s = sim_start p (ex_state p at_rest) \/ (end_frame p <= s_frame s)%Z).
  { intros k s Rc. induction Rc as [|k s u Rc IH Fr Hu Ex Ee]; [now left|]. right. destruct IH as [->|IH]; [|lia].
    assert (Eu : u = s1) by (apply Ok_inj; rewrite <- E, <- Hu; reflexivity). subst u. destruct Dn as [Dn|Dn]; [congruence|exact Dn]. }
  intros k s t Rc Fr Ht. destruct (One k s Rc) as [->|X]; [|lia].
  assert (Et : t = s1) by (apply Ok_inj; rewrite <- E, <- Ht; reflexivity). subst t. exact Gk.
Qed.
