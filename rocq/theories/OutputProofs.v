(** * OutputProofs: lemmas on the saved tables. *)
From Coq Require Import String Reals ZArith Lra Lia List Bool Permutation.
From Verif Require Import Num NumR Tools Lin Types Remesh Objects Transfer Rma Plastic Pbc Step Save Sampling Output Spec SpecStep SpecPlastic LinProofs ResProofs PlasticModels.
Import ListNotations.
Local Open Scope string_scope.
Local Open Scope list_scope.

Section Tables.
  Context {A : Type} {NA : Num A} {G : Geo A}.

  Lemma upd_map_seq : forall X n i (g : nat -> X) v, (i < n)%nat ->
    upd (map g (seq 0 n)) (Z.of_nat i) (fun _ => v) = Ok (map (fun j => if Nat.eqb j i then v else g j) (seq 0 n)).
  Proof.
    intros X n i g v H. destruct (upd_Ok (map g (seq 0 n)) (Z.of_nat i) (fun _ => v)) as (l & E & L & N); [rewrite map_length, seq_length; lia|].
    rewrite E. f_equal. apply nth_error_ext. intros j. rewrite N, Nat2Z.id, !nth_error_seq_map, !Nat.add_0_l.
    rewrite (Nat.eqb_sym j i). destruct (Nat.ltb_spec j n); destruct (Nat.eqb_spec i j); cbn; auto.
  Qed.
  Lemma repeat_map_seq : forall X (x : X) n s, repeat x n = map (fun _ => x) (seq s n).
  Proof. induction n; intros s; cbn; [auto|]. f_equal. apply IHn. Qed.
  Lemma rd_nth : forall X (l : list X) d i, (i < length l)%nat -> rd l (Z.of_nat i) = Ok (nth i l d).
  Proof. intros X l d i H. rewrite rd_nat, (nth_error_nth' l d H). reflexivity. Qed.

  Lemma stress_fold : forall p (P : Particles A) n sched g1 g2 g3, length (p_F P) = n -> length (p_tau P) = n -> Forall (fun i => (i < n)%nat) sched ->
    foldM (fun s i => let '(ps, qs, js) := s in let z := Z.of_nat i in
             F <- rd (p_F P) z ;; tau <- rd (p_tau P) z ;; ps' <- upd ps z (fun _ => save_p tau) ;; qs' <- upd qs z (fun _ => save_q p tau) ;;
             js' <- upd js z (fun _ => save_Je F) ;; Ok (ps', qs', js')) sched (map g1 (seq 0 n), map g2 (seq 0 n), map g3 (seq 0 n)) =
    Ok (map (fun j => if existsb (Nat.eqb j) sched then save_p (nth j (p_tau P) mzero) else g1 j) (seq 0 n),
        map (fun j => if existsb (Nat.eqb j) sched then save_q p (nth j (p_tau P) mzero) else g2 j) (seq 0 n),
        map (fun j => if existsb (Nat.eqb j) sched then save_Je (nth j (p_F P) mzero) else g3 j) (seq 0 n)).
  Proof.
    intros p P n. induction sched as [|i sched IH]; intros g1 g2 g3 LF LT Fo; [reflexivity|].
    inversion Fo as [|? ? Hi Fo']; subst x l. cbn [foldM]. rewrite (rd_nth _ (p_F P) mzero) by lia. rewrite (rd_nth _ (p_tau P) mzero) by lia. cbn [bind].
    rewrite !upd_map_seq by auto. cbn [bind]. rewrite (IH _ _ _ LF LT Fo'). f_equal. f_equal; [f_equal|].
    all: apply map_ext; intros j; cbn [existsb]; destruct (Nat.eqb_spec j i); cbn [orb]; [subst j; destruct (existsb _ sched)|]; reflexivity.
  Qed.
  Lemma stress_vecs_spec : forall p (P : Particles A) n sched, length (p_F P) = n -> length (p_tau P) = n -> Permutation sched (seq 0 n) ->
    stress_vecs p P n sched = Ok (map (fun j => save_p (nth j (p_tau P) mzero)) (seq 0 n), map (fun j => save_q p (nth j (p_tau P) mzero)) (seq 0 n),
                                  map (fun j => save_Je (nth j (p_F P) mzero)) (seq 0 n)).
  Proof.
    intros p P n sched LF LT Pe. unfold stress_vecs. rewrite (repeat_map_seq _ _ n 0).
    rewrite stress_fold; auto.
    - assert (K : forall j, In j (seq 0 n) -> existsb (Nat.eqb j) sched = true).
      { intros j Hj. apply existsb_exists. exists j. split; [|apply Nat.eqb_refl]. eapply Permutation_in; [symmetry; exact Pe|auto]. }
      f_equal. f_equal; [f_equal|]. all: apply map_ext_in; intros j Hj; now rewrite K.
    - apply Forall_forall. intros j Hj. apply (Permutation_in _ Pe), in_seq in Hj. lia.
  Qed.

  Lemma table_spec : forall (c : Col A) cs n, Forall (fun c => length (c_rows c) = n) (c :: cs) ->
    table (c :: cs) = Ok (flat_map c_names (c :: cs), map (fun i => flat_map (fun c => nth i (c_rows c) []) (c :: cs)) (seq 0 n)).
  Proof.
    intros c cs n H. unfold table. pose proof (Forall_inv H) as L. cbv beta in L. rewrite L.
    rewrite (mapM_total _ (fun i => flat_map (fun c => nth i (c_rows c) []) (c :: cs))); [reflexivity|].
    intros i Hi. apply in_seq in Hi. rewrite (mapM_total _ (fun c => nth i (c_rows c) [])); [cbn [bind]; now rewrite flat_map_concat_map|].
    intros d Hd. rewrite Forall_forall in H. apply rd_nth. rewrite (H d Hd). lia.
  Qed.
  Lemma nth_map_d : forall X Y (f : X -> Y) l i dx dy, (i < length l)%nat -> nth i (map f l) dy = f (nth i l dx).
  Proof. intros. rewrite (nth_indep _ dy (f dx)) by (now rewrite map_length). apply map_nth. Qed.

  (** Row [i] of the particle table, in terms of the particle's entries. *)
  Definition raw_row (p : Par A) (P : Particles A) (i : nat) : list A :=
    let tau := nth i (p_tau P) mzero in let h := nth i (p_hist P) zero_hist in
    vrow (nth i (p_x P) vzero) ++ vrow (nth i (p_v P) vzero) ++ [save_p tau; save_q p tau; save_Je (nth i (p_F P) mzero)] ++
    match plastic_model p with
    | NoPlasticity => []
    | _ => [h_vol h; h_dev h; h_dg h] ++ (if saves_muI p then [h_muI h] else []) ++ (if saves_visc p then [h_visc h] else [])
    end.
  Definition raw_names (p : Par A) : list string :=
    vnames "x" "y" "z" ++ vnames "vx" "vy" "vz" ++ ["p"; "q"; "Je"] ++
    match plastic_model p with
    | NoPlasticity => []
    | _ => ["eps_pl_vol"; "eps_pl_dev"; "delta_gamma"] ++ (if saves_muI p then ["muI"] else []) ++ (if saves_visc p then ["viscosity"] else [])
    end.

  Ltac fa := repeat match goal with
    | |- Forall _ [] => constructor
    | |- Forall _ (_ :: _) => constructor; [unfold scalars; cbn [c_rows]; rewrite ?map_length, ?seq_length; auto|]
    | |- Forall _ (_ ++ _) => apply Forall_app; split
    | |- Forall _ (if ?b then _ else _) => destruct b
    end.
  Ltac nthm := repeat match goal with |- context [nth ?i (map ?f (seq 0 ?n)) ?d] => rewrite (nth_map_d _ _ f (seq 0 n) i 0%nat d) by (rewrite seq_length; lia); rewrite seq_nth by lia end.
  Lemma particle_table_spec : forall p (s : St A) n sched, s_Np s = Z.of_nat n -> length (p_x (s_p s)) = n -> length (p_v (s_p s)) = n ->
    length (p_F (s_p s)) = n -> length (p_tau (s_p s)) = n -> length (p_hist (s_p s)) = n -> Permutation sched (seq 0 n) ->
    particle_table p s sched = Ok (raw_names p, map (raw_row p (s_p s)) (seq 0 n)).
  Proof.
    intros p s n sched N Lx Lv LF LT LH Pe. unfold particle_table, particle_cols. rewrite N, Nat2Z.id, stress_vecs_spec by auto. cbn [bind].
    rewrite app_comm_cons || idtac. cbn [app]. rewrite (table_spec _ _ n).
    2:{ fa. destruct (plastic_model p); cbn [app]; fa. }
    f_equal. f_equal.
    - cbn [flat_map c_names scalars]. unfold raw_names. f_equal. f_equal. cbn [app]. do 3 f_equal.
      destruct (plastic_model p); try reflexivity; destruct (saves_muI p), (saves_visc p); reflexivity.
    - apply map_ext_in. intros i Hi. apply in_seq in Hi. unfold raw_row. cbv zeta. cbn [flat_map c_rows scalars].
      rewrite !map_map. nthm. rewrite (nth_map_d _ _ vrow _ _ vzero) by lia. rewrite (nth_map_d _ _ vrow _ _ vzero) by lia. cbn [Nat.add]. f_equal. f_equal. cbn [app]. do 3 f_equal.
      assert (K : forall (f : Hist A -> A) r nm, nth i (c_rows (scalars nm (map f (p_hist (s_p s))))) [] ++ r = f (nth i (p_hist (s_p s)) zero_hist) :: r).
      { intros f r nm. unfold scalars. cbn [c_rows]. rewrite map_map, (nth_map_d _ _ _ _ _ zero_hist) by lia. reflexivity. }
      destruct (plastic_model p); try reflexivity; cbn [flat_map app]; rewrite !K; do 3 f_equal; rewrite flat_map_app; f_equal;
        destruct (saves_muI p), (saves_visc p); cbn [flat_map]; rewrite ?K; reflexivity.
  Qed.

  (** Row [k] of the grid table. *)
  Definition raw_grid_row (p : Par A) (x : TV) (nd : Node A) : list A :=
    vrow x ++ vrow (nd_v nd) ++ [nd_m nd] ++ (if use_mibf p then [nd_fr nd] else []).
  Lemma grid_table_spec : forall p (s : St A) n, length (grid_x_save (s_axes s)) = n -> length (s_nodes s) = n ->
    grid_table p s = Ok (vnames "x" "y" "z" ++ vnames "vx" "vy" "vz" ++ ["mass"] ++ (if use_mibf p then ["friction"] else []),
      map (fun i => raw_grid_row p (nth i (grid_x_save (s_axes s)) vzero) (nth i (s_nodes s) zero_node)) (seq 0 n)).
  Proof.
    intros p s n Lx Ln. unfold grid_table, grid_cols. cbn [app]. rewrite (table_spec _ _ n).
    2:{ fa. }
    f_equal. f_equal.
    - cbn [flat_map c_names scalars]. f_equal. f_equal. cbn [app]. f_equal. destruct (use_mibf p); reflexivity.
    - apply map_ext_in. intros i Hi. apply in_seq in Hi. unfold raw_grid_row. cbn [flat_map c_rows scalars]. rewrite !map_map.
      rewrite (nth_map_d _ _ vrow _ _ vzero) by lia. rewrite (nth_map_d _ _ (fun nd => vrow (nd_v nd)) _ _ zero_node) by lia.
      rewrite (nth_map_d _ _ (fun nd => [nd_m nd]) _ _ zero_node) by lia. f_equal. f_equal. cbn [app]. f_equal.
      destruct (use_mibf p); [|reflexivity]. cbn [flat_map scalars c_rows]. rewrite map_map, (nth_map_d _ _ _ _ _ zero_node) by lia. reflexivity.
  Qed.
End Tables.

(** ** Sizes of the grid arrays *)
Section Sizes.
  Context {A : Type} {NA : Num A} {G : Geo A}.
  Variable svd : TM -> TM * TV * TM.
  Variable uabs : A -> A.

  Lemma upd_len : forall X (l : list X) z f l', upd l z f = Ok l' -> length l' = length l.
  Proof. intros X l z f l' H. apply upd_inv in H. tauto. Qed.
  Lemma foldM_len : forall X Y (f : list X -> Y -> res (list X)) ys l l', (forall y l l', f l y = Ok l' -> length l' = length l) ->
    foldM f ys l = Ok l' -> length l' = length l.
  Proof. intros X Y f ys l l' H E. eapply (foldM_inv (fun g => length g = length l)); [reflexivity| |exact E]. intros y g g' _ Hg Eg. apply H in Eg. congruence. Qed.
  Lemma p2g_len : forall p axes P sched (nodes g : list (Node A)), p2g p axes P sched nodes = Ok g -> length g = length nodes.
  Proof.
    intros p axes P sched nodes g H. unfold p2g in H. apply bind_Ok in H. destruct H as (g' & E & H). apply Ok_inj in H. subst g. rewrite map_length.
    unfold p2g_accumulate in E. eapply (foldM_inv (fun g => length g = length nodes)); [reflexivity| |exact E].
    intros th l l' _ Hl El. apply bind_Ok in El. destruct El as (b & Eb & El). apply Ok_inj in El. subst l'. unfold merge. rewrite map_length, combine_length.
    assert (Lb : length b = length nodes); [|lia].
    unfold p2g_thread in Eb. apply foldM_len in Eb; [now rewrite repeat_length in Eb|]. intros i x x' Ex. unfold p2g_particle in Ex. cbv zeta in Ex.
    repeat (apply bind_Ok in Ex; destruct Ex as (? & ? & Ex)). apply foldM_len in Ex; auto. intros it y y' Ey. unfold p2g_item in Ey.
    destruct (nltb w_min (it_w it)); [now apply upd_len in Ey|apply Ok_inj in Ey; congruence].
  Qed.
  Lemma euler_len : forall p pl dt gr axes sched (nodes g : list (Node A)), euler p pl dt gr axes sched nodes = Ok g -> length g = length nodes.
  Proof.
    intros p pl dt gr axes sched nodes g H. unfold euler in H. apply bind_Ok in H. destruct H as (nl & _ & H). apply foldM_len in H; auto.
    intros k l l' E. repeat (apply bind_Ok in E; destruct E as (? & ? & E)). now apply upd_len in E.
  Qed.
  Lemma musl_len : forall p axes P sched (nodes g : list (Node A)), musl_grid p axes P sched nodes = Ok g -> length g = length nodes.
  Proof.
    intros p axes P sched nodes g H. unfold musl_grid in H. apply bind_Ok in H. destruct H as (g' & E & H). apply Ok_inj in H. subst g. rewrite map_length.
    eapply (foldM_inv (fun g => length g = length nodes)); [now rewrite map_length| |exact E].
    intros th l l' _ Hl El. apply bind_Ok in El. destruct El as (b & Eb & El). apply Ok_inj in El. subst l'. unfold musl_merge. rewrite map_length, combine_length.
    assert (Lb : length b = length nodes); [|lia].
    apply foldM_len in Eb; [now rewrite repeat_length in Eb|]. intros i x x' Ex. unfold musl_particle in Ex. cbv zeta in Ex.
    repeat (apply bind_Ok in Ex; destruct Ex as (? & ? & Ex)). apply foldM_len in Ex; auto. intros it y y' Ey. unfold musl_item in Ey.
    destruct (nltb w_min (it_w it)); [now apply upd_len in Ey|apply Ok_inj in Ey; congruence].
  Qed.

  (** The grid a step leaves behind. *)
  Definition grid_sized (s : St A) : Prop := length (s_nodes s) = Z.to_nat (grid_nodes (s_axes s)).
  Definition mesh_known (p : Par A) (s : St A) : Prop :=
    s_step s = 0%Z \/ if use_pbc p then length (s_axes s) = dim else length (s_mesh s) = dim.
  Lemma combine_seq_len : forall X (l : list X) n, length l = n -> length (combine l (seq 0 n)) = n.
  Proof. intros X l n H. rewrite combine_length, seq_length. lia. Qed.
  Lemma step_grid : forall af p sc s0 s1, mesh_known p s0 -> advanceStep svd uabs af p sc s0 = Ok s1 ->
    grid_sized s1 /\ length (s_axes s1) = dim /\ (if use_pbc p then length (s_axes s1) = dim else length (s_mesh s1) = dim).
  Proof.
    intros af p sc s0 s1 M H. unfold advanceStep in H. cbv zeta in H.
    apply bind_Ok in H. destruct H as (a1 & E1 & H). apply bind_Ok in H. destruct H as (a2 & E2 & H).
    apply bind_Ok in H. destruct H as (a3 & E3 & H). apply bind_Ok in H. destruct H as (g1 & Eg1 & H).
    apply bind_Ok in H. destruct H as (g2 & Eg2 & H). apply bind_Ok in H. destruct H as (a5 & E5 & H).
    apply bind_Ok in H. destruct H as (r & Er & H). apply bind_Ok in H. destruct H as (a7 & E7 & H).
    apply bind_Ok in H. destruct H as (q & Eq & H). apply Ok_inj in H. subst s1. clear Eq Er.
    unfold updateDt in E1. apply bind_Ok in E1. destruct E1 as (sp & _ & E1). apply Ok_inj in E1.
    assert (A2 : length (s_axes a2) = dim /\ (if use_pbc p then length (s_axes a2) = dim else length (s_mesh a2) = dim)).
    { assert (S1 : s_step a1 = s_step s0 /\ s_axes a1 = s_axes s0 /\ s_mesh a1 = s_mesh s0) by (subst a1; auto). destruct S1 as (S1 & S2 & S3).
      unfold remesh in E2. rewrite S1, S2 || rewrite S1 in E2. unfold mesh_known in M. destruct (use_pbc p); destruct (Z.eqb_spec (s_step s0) 0).
      - apply bind_Ok in E2. destruct E2 as (ax & Ea & E2). apply Ok_inj in E2. subst a2. cbn [with_grid s_axes]. unfold remeshFixed in Ea. apply mapM_length in Ea. rewrite seq_length in Ea. auto.
      - apply Ok_inj in E2. subst a2. rewrite S2. destruct M as [M|M]; [lia|auto].
      - apply bind_Ok in E2. destruct E2 as (am & Ea & E2). apply Ok_inj in E2. subst a2. cbn [with_grid s_axes s_mesh]. unfold remeshFixedInit in Ea. apply mapM_length in Ea. rewrite seq_length in Ea. rewrite !map_length. auto.
      - apply bind_Ok in E2. destruct E2 as (ax & Ea & E2). apply Ok_inj in E2. subst a2. cbn [with_grid s_axes s_mesh]. destruct M as [M|M]; [lia|].
        unfold remeshFixedCont in Ea. apply mapM_length in Ea. rewrite combine_seq_len in Ea by congruence. rewrite S3. auto. }
    assert (A3 : s_axes a3 = s_axes a2 /\ s_mesh a3 = s_mesh a2).
    { unfold pbc_before in E3. destruct (use_pbc p); [apply bind_Ok in E3; destruct E3 as (? & _ & E3)|]; apply Ok_inj in E3; subst a3; auto. }
    apply p2g_len in Eg1. apply euler_len in Eg2. unfold resizeGrid in Eg1. rewrite repeat_length in Eg1.
    assert (A5 : s_axes a5 = s_axes a2 /\ s_mesh a5 = s_mesh a2 /\ s_nodes a5 = g2).
    { unfold pbc_after in E5. destruct (use_pbc p); [apply bind_Ok in E5; destruct E5 as (? & _ & E5)|]; apply Ok_inj in E5; subst a5; destruct A3; auto. }
    assert (A7 : s_axes a7 = s_axes a2 /\ s_mesh a7 = s_mesh a2 /\ length (s_nodes a7) = length g2).
    { destruct A5 as (X1 & X2 & X3). unfold musl_part in E7. destruct (use_musl p).
      - apply bind_Ok in E7. destruct E7 as (rv & _ & E7). apply bind_Ok in E7. destruct E7 as (g3 & Eg3 & E7). apply bind_Ok in E7. destruct E7 as (d & _ & E7).
        apply Ok_inj in E7. subst a7. cbn. apply musl_len in Eg3. split; [exact X1|split; [exact X2|]]. rewrite Eg3. cbn. now rewrite X3.
      - apply Ok_inj in E7. subst a7. cbn. rewrite X3. auto. }
    destruct A7 as (X1 & X2 & X3). destruct A3 as (Y1 & Y2). unfold grid_sized. cbn [with_plates with_p s_axes s_mesh s_nodes]. rewrite X1, X2, X3, Eg2, Eg1, Y1. tauto.
  Qed.
  Lemma tick_grid : forall p (s : St A), s_axes (tick p s) = s_axes s /\ s_mesh (tick p s) = s_mesh s /\ s_nodes (tick p s) = s_nodes s.
  Proof. intros p s. unfold tick. cbv zeta. destruct (nltb _ _); auto. Qed.

  Lemma nth_flat_map : forall X Y (f : X -> list Y) l m i j x y, (forall x, length (f x) = m) ->
    nth_error l i = Some x -> nth_error (f x) j = Some y -> nth_error (flat_map f l) (i * m + j) = Some y.
  Proof.
    intros X Y f l m i j x y Hm. revert i. induction l as [|a l IH]; intros i Hi Hj; [destruct i; discriminate|]. cbn [flat_map].
    destruct i as [|i]; cbn [nth_error] in Hi.
    - injection Hi as ->. rewrite nth_error_app1; [auto|]. apply nth_error_Some. cbn. congruence.
    - rewrite nth_error_app2; rewrite Hm; [|lia]. replace (S i * m + j - m)%nat with (i * m + j)%nat by lia. auto.
  Qed.
  Lemma flat_map_len : forall X Y (f : X -> list Y) l m, (forall x, length (f x) = m) -> length (flat_map f l) = (length l * m)%nat.
  Proof. intros X Y f l m H. induction l as [|a l IH]; cbn [flat_map length]; auto. rewrite app_length, H, IH. lia. Qed.
End Sizes.

