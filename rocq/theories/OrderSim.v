(** * OrderSim: whole simulations with the particles in another order. *)
From Coq Require Import Reals ZArith Lra Lia List Bool Permutation.
From Verif Require Import Num NumR Tools Lin Types Remesh Objects Transfer Rma Plastic Pbc Step Spec SpecStep SpecOrder LinProofs ResProofs PloopProofs StepProofs OrderProofs.
Import ListNotations.
Local Open Scope R_scope.

Section Sim.
  Context {G : Geo R} {GL : GeoLaws G}.
  Variable svd : TM -> TM * TV * TM.
  Variable uabs : R -> R.
  Lemma tick_reorder : forall p pi s, tick p (reorder_state pi s) = reorder_state pi (tick p s).
  Proof. intros p pi s. unfold tick. cbn [s_frame s_time s_dt s_step reorder_state]. destruct (_ <? _)%num; reflexivity. Qed.
  Lemma wf_tick : forall p s n, well_formed s n -> well_formed (tick p s) n.
  Proof. intros p s n W. unfold tick. destruct (_ <? _)%num; exact W. Qed.
  Lemma save_reorder : forall p pi s, save_frame p (reorder_state pi s) = map (reorder_output pi) (save_frame p s).
  Proof. intros. unfold save_frame. destruct (save_sim p), (save_grid p); reflexivity. Qed.
  Lemma loop_any : forall af p sch sch' s00 n pi, (forall k, valid_sched (sch k)) -> (forall k, valid_sched (sch' k)) -> Permutation pi (seq 0 n) -> grids_fit svd uabs af p sch s00 ->
    forall fuel k s stop s1 ev, reached svd uabs af p sch s00 k s -> well_formed s n -> sim_loop svd uabs fuel af p sch k s = Ok (stop, s1, ev) ->
    sim_loop svd uabs fuel af p sch' k (reorder_state pi s) = Ok (stop, reorder_state pi s1, map (reorder_output pi) ev).
  Proof.
    intros af p sch sch' s00 n pi V V' Pi GF. induction fuel as [|fuel IH]; intros k s stop s1 ev Rc W H; cbn [sim_loop] in *; cbn [s_frame reorder_state] in *; destruct (s_frame s <? end_frame p)%Z eqn:Fr; try discriminate.
    - apply (f_equal (fun r => match r with Ok x => x | _ => (stop, s1, ev) end)) in H. apply pair_equal_spec in H. destruct H as (H & <-). apply pair_equal_spec in H. destruct H as (<- & <-). reflexivity.
    - apply Z.ltb_lt in Fr. apply bind_Ok in H. destruct H as (a & Ea & H).
      rewrite (step_any svd uabs af p (sch k) (sch' k) s a n pi (V k) (V' k) W Pi Ea (GF k s a Rc Fr Ea)). cbn [bind].
      change (s_exit (reorder_state pi a)) with (s_exit a). destruct (s_exit a) eqn:Ex.
      + apply (f_equal (fun r => match r with Ok x => x | _ => (stop, s1, ev) end)) in H. apply pair_equal_spec in H. destruct H as (H & <-). apply pair_equal_spec in H. destruct H as (<- & <-). reflexivity.
      + rewrite tick_reorder. change (at_end p (reorder_state pi (tick p a))) with (at_end p (tick p a)). change (s_frame (reorder_state pi (tick p a))) with (s_frame (tick p a)). change (s_frame (reorder_state pi a)) with (s_frame a).
        rewrite save_reorder. destruct (at_end p (tick p a)) eqn:Ee.
        * apply (f_equal (fun r => match r with Ok x => x | _ => (stop, s1, ev) end)) in H. apply pair_equal_spec in H. destruct H as (H & <-). apply pair_equal_spec in H. destruct H as (<- & <-).
          rewrite map_app. destruct (s_frame (tick p a) =? s_frame a)%Z; reflexivity.
        * apply bind_Ok in H. destruct H as (((st & s2) & ev2) & El & H). cbn [fst snd] in H.
          rewrite (IH (S k) (tick p a) st s2 ev2); auto; [|econstructor 2; eauto|apply wf_tick; eapply wf_step; eauto].
          apply (f_equal (fun r => match r with Ok x => x | _ => (stop, s1, ev) end)) in H. apply pair_equal_spec in H. destruct H as (H & <-). apply pair_equal_spec in H. destruct H as (<- & <-).
          cbn [bind fst snd]. rewrite map_app. destruct (s_frame (tick p a) =? s_frame a)%Z; reflexivity.
    - apply (f_equal (fun r => match r with Ok x => x | _ => (stop, s1, ev) end)) in H. apply pair_equal_spec in H. destruct H as (H & <-). apply pair_equal_spec in H. destruct H as (<- & <-). reflexivity.
  Qed.
  Lemma start_reorder : forall p pi s, sim_start p (reorder_state pi s) = reorder_state pi (sim_start p s).
  Proof.
    intros p pi s. unfold sim_start, reorder_state, fill_muI. cbn [s_p s_Np s_nadd s_axes s_nodes s_mesh s_time s_frame s_step s_dt s_grav s_gravf s_plates s_exit].
    destruct (use_mibf p); [|reflexivity]. unfold reorder_particles. cbn [p_x p_v p_pic p_flip p_hist p_F p_B p_tau]. now rewrite reorder_map.
  Qed.
  Lemma wf_start : forall p s n, well_formed s n -> well_formed (sim_start p s) n.
  Proof.
    intros p s n (C & W). split; [|exact W]. unfold sim_start, fill_muI. cbn [s_p]. destruct (use_mibf p); auto. destruct C. constructor; auto. cbn. now rewrite map_length.
  Qed.
  Lemma reorder_id : forall s n, well_formed s n -> reorder_state (seq 0 n) s = s.
  Proof.
    intros s n W. destruct (wf_pack s n W) as (l & L & E & _). unfold reorder_state. rewrite E, reorder_pack, <- L, reorder_seq. rewrite <- E. now destruct s.
  Qed.
End Sim.

