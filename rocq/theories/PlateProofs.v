(** * PlateProofs: moving plates over sequences of steps. *)
From Coq Require Import Reals ZArith Lra Lia List Bool.
From Verif Require Import Num NumR Tools Lin Types Objects Transfer Step SpecObj SpecStep Spec LinProofs ResProofs ObjectProofs.
Import ListNotations.
Local Open Scope R_scope.

(** What a step does to clock, gravity and plates, over any number type. *)
Section Clock.
  Context {A : Type} {NA : Num A} {G : Geo A}.
  Variable svd : TM -> TM * TV * TM.
  Variable uabs : A -> A.

  Lemma updateDt_keep : forall p s s', updateDt p s = Ok s' -> s_time s' = s_time s /\ s_plates s' = s_plates s /\ s_frame s' = s_frame s /\ s_gravf s' = s_gravf s.
  Proof. intros p s s' H. unfold updateDt in H. invb. now destruct s. Qed.
  Lemma remesh_keep : forall af p s s', remesh af p s = Ok s' -> s_time s' = s_time s /\ s_plates s' = s_plates s /\ s_dt s' = s_dt s /\ s_frame s' = s_frame s /\ s_grav s' = s_grav s /\ s_gravf s' = s_gravf s.
  Proof.
    intros af p s s' H. unfold remesh in H. destruct (use_pbc p); destruct (s_step s =? 0)%Z; invb; repeat split.
  Qed.
  Lemma pbc_before_keep : forall p sc s s', pbc_before p sc s = Ok s' -> s_time s' = s_time s /\ s_plates s' = s_plates s /\ s_dt s' = s_dt s /\ s_frame s' = s_frame s /\ s_grav s' = s_grav s /\ s_gravf s' = s_gravf s.
  Proof. intros p sc s s' H. unfold pbc_before in H. destruct (use_pbc p); invb; repeat split. Qed.
  Lemma pbc_after_keep : forall p s s', pbc_after p s = Ok s' -> s_time s' = s_time s /\ s_plates s' = s_plates s /\ s_dt s' = s_dt s /\ s_frame s' = s_frame s /\ s_grav s' = s_grav s /\ s_gravf s' = s_gravf s.
  Proof. intros p s s' H. unfold pbc_after in H. destruct (use_pbc p); invb; repeat split. Qed.
  Lemma musl_part_keep : forall p sc s s', musl_part svd uabs p sc s = Ok s' -> s_time s' = s_time s /\ s_plates s' = s_plates s /\ s_dt s' = s_dt s /\ s_frame s' = s_frame s /\ s_grav s' = s_grav s /\ s_gravf s' = s_gravf s.
  Proof. intros p sc s s' H. unfold musl_part in H. destruct (use_musl p); invb; repeat split. Qed.

  Lemma step_keep : forall af p sc s0 s1, advanceStep svd uabs af p sc s0 = Ok s1 ->
    s_time s1 = s_time s0 /\ s_frame s1 = s_frame s0 /\ s_gravf s1 = s_gravf s0 /\
    s_plates s1 = map (plate_move (s_dt s1) (frame_dt p) (s_time s0)) (s_plates s0) /\
    exists s', updateDt p s0 = Ok s' /\ s_dt s1 = s_dt s' /\ s_grav s1 = s_grav s'.
  Proof.
    intros af p sc s0 s1 H. unfold advanceStep in H. cbv zeta in H.
    apply bind_Ok in H. destruct H as (a1 & E1 & H). apply bind_Ok in H. destruct H as (a2 & E2 & H).
    apply bind_Ok in H. destruct H as (a3 & E3 & H). apply bind_Ok in H. destruct H as (g1 & _ & H).
    apply bind_Ok in H. destruct H as (g2 & _ & H). apply bind_Ok in H. destruct H as (a5 & E5 & H).
    apply bind_Ok in H. destruct H as (r & _ & H). apply bind_Ok in H. destruct H as (a7 & E7 & H).
    apply bind_Ok in H. destruct H as (q & _ & H). injection H as <-.
    pose proof E1 as E1'. apply updateDt_keep in E1. apply remesh_keep in E2. apply pbc_before_keep in E3. apply pbc_after_keep in E5. apply musl_part_keep in E7.
    destruct E1 as (t1 & l1 & f1 & h1), E2 as (t2 & l2 & d2 & f2 & c2 & h2), E3 as (t3 & l3 & d3 & f3 & c3 & h3), E5 as (t5 & l5 & d5 & f5 & c5 & h5), E7 as (t7 & l7 & d7 & f7 & c7 & h7).
    cbn [with_p with_plates with_exit with_nodes with_pn s_time s_frame s_plates s_dt s_p s_grav s_gravf] in *.
    assert (T : s_time a7 = s_time s0) by congruence.
    split; [auto|]. split; [congruence|]. split; [congruence|]. split; [|exists a1; split; [auto|split; congruence]].
    rewrite T. f_equal. congruence.
  Qed.
  Theorem step_clock : forall af p sc s0 s1, advanceStep svd uabs af p sc s0 = Ok s1 ->
    s_time s1 = s_time s0 /\ s_frame s1 = s_frame s0 /\
    s_plates s1 = map (plate_move (s_dt s1) (frame_dt p) (s_time s0)) (s_plates s0) /\
    exists s', updateDt p s0 = Ok s' /\ s_dt s1 = s_dt s'.
  Proof. intros af p sc s0 s1 H. destruct (step_keep _ _ _ _ _ H) as (a & b & _ & d & s' & e & f & _). eauto 10. Qed.
  (** Step size and gravity of a step. *)
  Theorem step_dt_grav : forall af p sc s0 s1, advanceStep svd uabs af p sc s0 = Ok s1 ->
    s_gravf s1 = s_gravf s0 /\ s_grav s1 = gravity_of p (s_time s0) (s_gravf s0) (s_grav s0) /\
    exists sp, max_speed (p_v (s_p s0)) = Ok sp /\ s_dt s1 = dt_of p sp (s_time s0) (s_frame s0).
  Proof.
    intros af p sc s0 s1 H. destruct (step_keep _ _ _ _ _ H) as (_ & _ & g & _ & s' & E & Ed & Eg). split; auto.
    unfold updateDt in E. apply bind_Ok in E. destruct E as (sp & E & E'). injection E' as <-. split; [exact Eg|]. exists sp. split; auto.
  Qed.
End Clock.

Section PlateRun.
  Context {G : Geo R} {GL : GeoLaws G}.
  Variable svd : TM -> TM * TV * TM.
  Variable uabs : R -> R.

  (** One move. *)
  Lemma move_v : forall p dt time pl, pl_v (plate_move dt (frame_dt p) time pl) = prescribed p pl time.
  Proof.
    intros. unfold plate_move, prescribed. cbv zeta. rewrite !nofZ_R. numR.
    set (f := if Rltb time (pl_load pl * frame_dt p) then 1 / pl_vmin pl else 1).
    transitivity (vscale (pl_v0 pl) f).
    { destruct (pl_type pl); try reflexivity; destruct dim as [|[|[|[|?]]]]; reflexivity. }
    unfold f.
    destruct (Rltb_spec time (pl_load pl * frame_dt p)); destruct (Rlt_dec time (pl_load pl * frame_dt p)); try lra; vx; numR; unfold Rdiv; lra.
  Qed.
  Lemma move_keep : forall dt fdt time pl, let pl' := plate_move dt fdt time pl in
    pl_type pl' = pl_type pl /\ pl_bc pl' = pl_bc pl /\ pl_fric pl' = pl_fric pl /\ pl_v0 pl' = pl_v0 pl /\ pl_vmin pl' = pl_vmin pl /\ pl_load pl' = pl_load pl.
  Proof.
    intros. unfold pl', plate_move. cbv zeta.
    destruct (pl_type pl) eqn:T; cbn; auto 10; destruct dim as [|[|[|[|?]]]]; cbn; auto 10.
  Qed.
  Lemma move_pos : forall p dt time pl, plate_valid (pl_type pl) -> let pl' := plate_move dt (frame_dt p) time pl in
    pl_pos pl' = pl_pos pl + dt * vget (prescribed p pl time) (pos_dir (pl_type pl)) /\
    (forall d, ext_dir (pl_type pl) = Some d -> pl_lower pl' = pl_lower pl + dt * vget (prescribed p pl time) d /\
       pl_upper pl' = pl_upper pl + dt * vget (prescribed p pl time) d) /\
    (ext_dir (pl_type pl) = None -> pl_lower pl' = pl_lower pl /\ pl_upper pl' = pl_upper pl).
  Proof.
    intros p dt time pl V. cbv zeta. rewrite <- (move_v p dt time pl). unfold plate_move. cbv zeta.
    destruct (pl_type pl) eqn:T; cbn [plate_valid] in V; rewrite ?V; cbn; repeat split; try discriminate; intros; try (injection H as <-); auto.
  Qed.

  (** All moves of a run. *)
  Definition moves (p : Par R) (l : list (R * R)) (pl : Plate R) : Plate R :=
    fold_left (fun q a => plate_move (fst a) (frame_dt p) (snd a) q) l pl.
  Lemma run_plates : forall af p s0 l s1, run svd uabs af p s0 l s1 -> s_plates s1 = map (moves p l) (s_plates s0).
  Proof.
    intros af p s0 l s1 H. induction H.
    - unfold moves. cbn. symmetry. rewrite map_id. auto.
    - rewrite IHrun. apply step_clock in H. destruct H as (_ & _ & Pl & _).
      replace (s_plates (tick p s1)) with (s_plates s1) by (unfold tick; cbv zeta; destruct (nltb _ _); auto).
      rewrite Pl, map_map. reflexivity.
  Qed.
  Lemma prescribed_ext : forall p pl pl' t, pl_load pl' = pl_load pl -> pl_v0 pl' = pl_v0 pl -> pl_vmin pl' = pl_vmin pl ->
    prescribed p pl' t = prescribed p pl t.
  Proof. intros p pl pl' t E1 E2 E3. unfold prescribed. rewrite E1, E2, E3. auto. Qed.
  Lemma moves_spec : forall p l pl, plate_valid (pl_type pl) -> let pl' := moves p l pl in
    pl_type pl' = pl_type pl /\ pl_bc pl' = pl_bc pl /\ pl_fric pl' = pl_fric pl /\
    pl_pos pl' = pl_pos pl + Rsum (fun a => fst a * vget (prescribed p pl (snd a)) (pos_dir (pl_type pl))) l /\
    pl_upper pl' - pl_lower pl' = pl_upper pl - pl_lower pl /\
    (forall d, ext_dir (pl_type pl) = Some d -> pl_lower pl' = pl_lower pl + Rsum (fun a => fst a * vget (prescribed p pl (snd a)) d) l) /\
    (ext_dir (pl_type pl) = None -> pl_lower pl' = pl_lower pl /\ pl_upper pl' = pl_upper pl).
  Proof.
    intros p l. induction l as [|[dt t] l IH]; intros pl V; cbv zeta.
    - cbn. repeat split; try lra. intros; lra.
    - set (q := plate_move dt (frame_dt p) t pl). change (moves p ((dt, t) :: l) pl) with (moves p l q).
      destruct (move_keep dt (frame_dt p) t pl) as (T & B & F & V0 & Vm & Ld). fold q in T, B, F, V0, Vm, Ld.
      destruct (move_pos p dt t pl V) as (Ps & Ex & Ex0). fold q in Ps, Ex, Ex0.
      destruct (IH q) as (T' & B' & F' & Ps' & W' & Ex' & Ex0'); [rewrite T; auto|].
      rewrite T in *.
      assert (S : forall d, Rsum (fun a => fst a * vget (prescribed p q (snd a)) d) l = Rsum (fun a => fst a * vget (prescribed p pl (snd a)) d) l).
      { intros. apply Rsum_ext. intros. rewrite (prescribed_ext p pl q); auto. }
      rewrite S in Ps'. cbn [Rsum fold_right map fst snd]. unfold Rsum in *. cbn [fold_right map fst snd] in *.
      split; [auto|]. split; [congruence|]. split; [congruence|]. split; [lra|]. split.
      + rewrite W'. destruct (ext_dir (pl_type pl)) as [d|].
        * destruct (Ex d eq_refl) as (-> & ->). lra.
        * destruct (Ex0 eq_refl) as (-> & ->). lra.
      + split.
        * intros d Hd. destruct (Ex d Hd) as (El & _). rewrite (Ex' d Hd), S. lra.
        * intros Hd. destruct (Ex0 Hd) as (El & Eu). destruct (Ex0' Hd) as (El' & Eu'). split; congruence.
  Qed.
  Lemma moves_v : forall p l a pl, pl_v (moves p (l ++ [a]) pl) = prescribed p pl (snd a).
  Proof.
    intros. unfold moves. rewrite fold_left_app. cbn [fold_left]. rewrite move_v. apply prescribed_ext.
    - induction l as [|b l IH] using rev_ind; auto. rewrite fold_left_app; cbn [fold_left]. destruct (move_keep (fst b) (frame_dt p) (snd b) (fold_left (fun q a => plate_move (fst a) (frame_dt p) (snd a) q) l pl)) as (_ & _ & _ & _ & _ & ->). auto.
    - induction l as [|b l IH] using rev_ind; auto. rewrite fold_left_app; cbn [fold_left]. destruct (move_keep (fst b) (frame_dt p) (snd b) (fold_left (fun q a => plate_move (fst a) (frame_dt p) (snd a) q) l pl)) as (_ & _ & _ & -> & _). auto.
    - induction l as [|b l IH] using rev_ind; auto. rewrite fold_left_app; cbn [fold_left]. destruct (move_keep (fst b) (frame_dt p) (snd b) (fold_left (fun q a => plate_move (fst a) (frame_dt p) (snd a) q) l pl)) as (_ & _ & _ & _ & -> & _). auto.
  Qed.
End PlateRun.
