(** * Properties C54-C58: saved tables, VDB objects and samplers, initialize(). *)
From Coq Require Import String Reals ZArith Lra Lia List Bool Permutation.
From Verif Require Import Num NumR Tools Lin Types Remesh Objects Transfer Rma Plastic Pbc Step Save Sampling Output Spec SpecObj SpecStep SpecTime SpecPlastic LinProofs ResProofs
  PlasticModels OutputProofs PlateProofs StepProofs GuardProofs Examples ExStep PropStep PropBoundary PropSample.
Import ListNotations.
Local Open Scope string_scope.
Local Open Scope list_scope.
Local Open Scope R_scope.

(** ** C54 *)
Section Documented.
  Context {G : Geo R}.
  (** The columns of a particle file. *)
  Definition particle_columns (p : Par R) : list string :=
    (if Nat.eqb dim 3 then ["x"; "y"; "z"; "vx"; "vy"; "vz"] else ["x"; "y"; "vx"; "vy"]) ++ ["p"; "q"; "Je"] ++
    match plastic_model p with
    | NoPlasticity => []
    | VM | DP | DPSoft | VMVisc | MCC => ["eps_pl_vol"; "eps_pl_dev"; "delta_gamma"]
    | DPVisc | MCCVisc => ["eps_pl_vol"; "eps_pl_dev"; "delta_gamma"] ++ (if use_mibf p then ["muI"] else [])
    | DPMui | MCCMui => ["eps_pl_vol"; "eps_pl_dev"; "delta_gamma"; "muI"; "viscosity"]
    end.
  (** The value of a column for particle [i]. *)
  Definition column_value (p : Par R) (P : Particles R) (i : nat) (c : string) (y : R) : Prop :=
    let at_ (v : list TV) k := exists u, nth_error v i = Some u /\ y = vget u k in
    let hist (f : Hist R -> R) := exists h, nth_error (p_hist P) i = Some h /\ y = f h in
    let stress (f : TM -> R) := exists t, nth_error (p_tau P) i = Some t /\ y = f t in
    (c = "x" /\ at_ (p_x P) 0%nat) \/ (c = "y" /\ at_ (p_x P) 1%nat) \/ (c = "z" /\ at_ (p_x P) 2%nat) \/
    (c = "vx" /\ at_ (p_v P) 0%nat) \/ (c = "vy" /\ at_ (p_v P) 1%nat) \/ (c = "vz" /\ at_ (p_v P) 2%nat) \/
    (c = "p" /\ stress pressure) \/ (c = "q" /\ stress (shear (q_prefac p))) \/
    (c = "Je" /\ exists F, nth_error (p_F P) i = Some F /\ y = mdet F) \/
    (c = "eps_pl_vol" /\ hist (fun h => h_vol h)) \/ (c = "eps_pl_dev" /\ hist (fun h => h_dev h)) \/ (c = "delta_gamma" /\ hist (fun h => h_dg h)) \/
    (c = "muI" /\ hist (fun h => h_muI h)) \/ (c = "viscosity" /\ hist (fun h => h_visc h)).
End Documented.

Lemma save_p_pressure : forall G, two_or_three G -> forall t : @TM R G, save_p t = pressure t.
Proof.
  intros G HG t. pose proof (geolaws G HG). unfold save_p, pressure, mtrace, dimA. rewrite nofZ_R. numR. rewrite <- INR_IZR_INZ. reflexivity.
Qed.
Lemma save_q_shear : forall G, two_or_three G -> forall p (t : @TM R G), save_q p t = shear (q_prefac p) t.
Proof.
  intros G HG p t. pose proof (geolaws G HG). unfold save_q, shear, mdd. cbv zeta. rewrite (save_p_pressure G HG). numR. f_equal. f_equal.
  apply sumd_ext. intros i Hi. apply sumd_ext. intros j Hj. autorewrite with geo; auto. unfold Rsqr. destruct (Nat.eqb i j); ring.
Qed.
Ltac col := first [left; split; [reflexivity|eexists; split; [eassumption|reflexivity]]|right; col|split; [reflexivity|eexists; split; [eassumption|reflexivity]]].
Lemma documented_row : forall G, two_or_three G -> forall p (P : Particles R) n i, consistent P n -> (i < n)%nat ->
  Forall2 (column_value p P i) (particle_columns p) (raw_row p P i).
Proof.
  intros G HG p P n i C Hi. destruct C.
  assert (Ex : nth_error (p_x P) i = Some (nth i (p_x P) vzero)) by (apply nth_error_nth'; lia).
  assert (Ev : nth_error (p_v P) i = Some (nth i (p_v P) vzero)) by (apply nth_error_nth'; lia).
  assert (EF : nth_error (p_F P) i = Some (nth i (p_F P) mzero)) by (apply nth_error_nth'; lia).
  assert (Et : nth_error (p_tau P) i = Some (nth i (p_tau P) mzero)) by (apply nth_error_nth'; lia).
  assert (Eh : nth_error (p_hist P) i = Some (nth i (p_hist P) zero_hist)) by (apply nth_error_nth'; lia).
  unfold raw_row, particle_columns, column_value. cbv zeta. rewrite (save_p_pressure G HG), (save_q_shear G HG).
  unfold saves_muI, saves_visc.
  destruct HG as [-> | ->]; unfold vrow; cbn [dim Geo2 Geo3 seq map Nat.eqb app]; destruct (plastic_model p); try destruct (use_mibf p); cbn [app];
    repeat (constructor; [col|]); constructor.
Qed.
(** Every particle file of a simulation is a well-formed table with one row per particle, whose
    columns are the documented ones and whose entries are the values of that particle, for every
    execution order of the loop that computes the stresses. *)
Theorem C54_particle_tables : forall G, two_or_three G -> forall svd uabs fuel af p init sch s0 n st s1 ev,
  (forall k, valid_sched (sch k)) -> well_formed s0 n -> simulate svd uabs fuel af p init sch s0 = Ok (st, s1, ev) ->
  forall s sched, In (EvParticles s) ev -> Permutation sched (seq 0 n) ->
  exists rows, particle_table p s sched = Ok (particle_columns p, rows) /\ length rows = n /\
    forall i row, nth_error rows i = Some row -> Forall2 (column_value p (s_p s) i) (particle_columns p) row.
Proof.
  intros G HG svd uabs fuel af p init sch s0 n st s1 ev V W H s sched He Pe.
  destruct (C51_simulation_keeps_arrays G svd uabs fuel af p init sch s0 n st s1 ev V W H) as (_ & K). destruct (K s (or_introl He)) as (C & N & _).
  exists (map (raw_row p (s_p s)) (seq 0 n)). pose proof C as C'. destruct C'. split; [|split].
  - rewrite (particle_table_spec p s n) by auto. f_equal. f_equal. unfold raw_names, particle_columns, saves_muI, saves_visc, vnames.
    clear -HG. destruct HG as [-> | ->]; cbn [dim Geo2 Geo3 Nat.eqb app]; destruct (plastic_model p); try destruct (use_mibf p); reflexivity.
  - now rewrite map_length, seq_length.
  - intros i row Hr. rewrite nth_error_seq_map in Hr. destruct (Nat.ltb_spec i n); [|discriminate]. injection Hr as <-. eapply documented_row; eauto.
Qed.
(** The values of concrete columns. *)
Example C54_ex : forall svd uabs, let p := ex_p (-1) true 1000 (e2 0 (-10)) true in exists af s1 ev s,
  simulate svd uabs 1 af p true (fun _ => rev_sched) (ex_state p at_rest) = Ok (Finished, s1, ev) /\ well_formed (ex_state p at_rest) 2 /\
  In (EvParticles s) ev /\ particle_columns p = ["x"; "y"; "vx"; "vy"; "p"; "q"; "Je"].
Proof.
  intros. destruct (ex_sim svd uabs (fun _ => rev_sched) (-1) true (e2 0 (-10)) true (fun _ => rev_valid)) as (af & H). destruct (H af 0%nat (le_n _)) as (s1 & s' & ev & _ & _ & _ & E).
  exists af, s', ev, (sim_start p (ex_state p at_rest)). split; [exact E|]. split; [apply ex_wf|]. split; [|reflexivity].
  destruct (sim_cases svd uabs _ _ _ _ _ _ _ _ _ E) as [([K|[K|K]] & _)|(ev1 & _ & ->)]; try discriminate. right. now left.
Qed.
Print Assumptions C54_particle_tables.

(** ** C55 *)
Section Nodes.
  Context {G : Geo R}.
  (** [x] is the position of the node with the indices [idx] (one per axis). *)
  Definition is_node (axes : list (Axis R)) (idx : list nat) (x : TV) : Prop :=
    length idx = dim /\ forall k a i, nth_error axes k = Some a -> nth_error idx k = Some i -> nth_error (ax_co a) i = Some (vget x k).
  (** Number of the node in row order: the last index runs fastest. *)
  Definition number (axes : list (Axis R)) (idx : list nat) : nat :=
    fold_left (fun n ai => (n * length (ax_co (fst ai)) + snd ai)%nat) (combine axes idx) 0%nat.
  Definition grid_columns (p : Par R) : list string :=
    (if Nat.eqb dim 3 then ["x"; "y"; "z"; "vx"; "vy"; "vz"; "mass"] else ["x"; "y"; "vx"; "vy"; "mass"]) ++ (if use_mibf p then ["friction"] else []).
  Definition coordinates (x : TV) : list R := map (vget x) (seq 0 dim).
End Nodes.
Lemma grid_x_number : forall G, two_or_three G -> forall (axes : list (Axis R)) idx x, length axes = dim -> is_node axes idx x ->
  nth_error (grid_x_save axes) (number axes idx) = Some x.
Proof.
  intros G HG axes idx x L (Li & Hn). pose proof (geolaws G HG) as GL. destruct (StencilProofs.axes_cases axes L) as [(D & ax & ay & ->)|(D & ax & ay & az & ->)]; rewrite D in Li.
  - destruct idx as [|i [|j [|]]]; try discriminate. pose proof (Hn 0%nat ax i eq_refl eq_refl) as H0. pose proof (Hn 1%nat ay j eq_refl eq_refl) as H1.
    unfold number. cbn [combine fold_left fst snd grid_x_save]. rewrite Nat.mul_0_l, Nat.add_0_l.
    eapply nth_flat_map; [intros; apply map_length|exact H0|]. rewrite nth_error_map, H1. cbn [option_map]. f_equal. vx. rewrite D in Hk. destruct k as [|[|]]; cbn; auto; lia.
  - destruct idx as [|i [|j [|l [|]]]]; try discriminate. pose proof (Hn 0%nat ax i eq_refl eq_refl) as H0. pose proof (Hn 1%nat ay j eq_refl eq_refl) as H1. pose proof (Hn 2%nat az l eq_refl eq_refl) as H2.
    unfold number. cbn [combine fold_left fst snd grid_x_save]. rewrite Nat.mul_0_l, Nat.add_0_l, Nat.mul_add_distr_r, <- Nat.mul_assoc, <- Nat.add_assoc.
    eapply nth_flat_map; [intros; apply flat_map_len; intros; apply map_length|exact H0|].
    eapply nth_flat_map; [intros; apply map_length|exact H1|]. rewrite nth_error_map, H2. cbn [option_map]. f_equal. vx. rewrite D in Hk. destruct k as [|[|[|]]]; cbn; auto; lia.
Qed.
Lemma grid_x_len : forall G, two_or_three G -> forall (axes : list (Axis R)), length axes = dim -> (prodlen axes <= 4294967295)%Z ->
  length (grid_x_save axes) = Z.to_nat (grid_nodes axes) /\ grid_nodes axes = prodlen axes.
Proof.
  intros G HG axes L F. pose proof (geolaws G HG) as GL. assert (W : forall z, (0 <= z <= 4294967295)%Z -> wrapu z = z) by (intros; apply wrapu_small; lia).
  assert (Wm : forall a b, wrapu (wrapu a * wrapu b) = wrapu (a * b)) by (intros; unfold wrapu; symmetry; apply Z.mul_mod; lia).
  assert (Wi : forall a, wrapu (wrapu a) = wrapu a) by (intros; unfold wrapu; apply Z.mod_mod; lia).
  destruct (StencilProofs.axes_cases axes L) as [(D & ax & ay & ->)|(D & ax & ay & az & ->)]; unfold prodlen in *; cbn [fold_right grid_x_save grid_nodes map] in *; unfold ax_n.
  - rewrite Wm, Z.mul_1_r in *. rewrite W by lia. split; [|reflexivity]. rewrite (flat_map_len _ _ _ _ (length (ax_co ay))) by (intros; apply map_length). lia.
  - assert (X : wrapu (wrapu (wrapu (Z.of_nat (length (ax_co ax))) * wrapu (Z.of_nat (length (ax_co ay)))) * wrapu (Z.of_nat (length (ax_co az)))) =
                wrapu (Z.of_nat (length (ax_co ax)) * (Z.of_nat (length (ax_co ay)) * Z.of_nat (length (ax_co az))))).
    { rewrite (Wm (Z.of_nat (length (ax_co ax)))), Wm. f_equal. ring. }
    rewrite X, Z.mul_1_r in *. rewrite W by lia. split; [|reflexivity].
    rewrite (flat_map_len _ _ _ _ (length (ax_co ay) * length (ax_co az))%nat) by (intros; apply flat_map_len; intros; apply map_length). lia.
Qed.
Lemma prodlen_nn : forall (axes : list (Axis R)), (0 <= prodlen axes)%Z.
Proof. unfold prodlen. induction axes as [|a l IH]; cbn [fold_right]; lia. Qed.
Lemma loop_grid : forall (G : Geo R) svd uabs af p sch fuel k s st s' ev, mesh_known p s -> sim_loop svd uabs fuel af p sch k s = Ok (st, s', ev) ->
  Forall (ev_ok (fun s => grid_sized s /\ length (s_axes s) = dim)) ev.
Proof.
  intros G svd uabs af p sch. induction fuel as [|fuel IH]; intros k s st s' ev Hs H; cbn [sim_loop] in H; destruct (s_frame s <? end_frame p)%Z.
  1: discriminate. 1, 3: injection H as <- <- <-; constructor.
  apply bind_Ok in H. destruct H as (s1 & E & H). destruct (step_grid _ _ _ _ _ _ _ Hs E) as (G1 & G2 & G3). destruct (s_exit s1) eqn:Ex; [injection H as <- <- <-; constructor|].
  cbv zeta in H. destruct (tick_grid p s1) as (T1 & T2 & T3).
  assert (I2 : grid_sized (tick p s1) /\ length (s_axes (tick p s1)) = dim) by (unfold grid_sized; rewrite T1, T3; auto).
  assert (M2 : mesh_known p (tick p s1)) by (right; rewrite T1, T2; exact G3).
  assert (C1 : Forall (ev_ok (fun s => grid_sized s /\ length (s_axes s) = dim)) (if (s_frame (tick p s1) =? s_frame s1)%Z then [] else save_frame p (tick p s1))).
  { destruct (_ =? _)%Z; [constructor|now apply save_ok]. }
  destruct (at_end p (tick p s1)).
  - injection H as <- <- <-. apply Forall_app. split; [auto|now apply save_ok].
  - apply bind_Ok in H. destruct H as ([[st2 s2] ev2] & E2 & H). cbn [fst snd] in H. injection H as <- <- <-.
    apply Forall_app. split; [auto|]. eapply IH; eauto.
Qed.
(** Every grid file has one row per grid node; the row of a node holds its position and the
    velocity, mass and (if used) friction the time step computed for the node with that number. *)
Theorem C55_grid_tables : forall G, two_or_three G -> forall svd uabs fuel af p init sch s0 st s1 ev,
  s_step s0 = 0%Z -> simulate svd uabs fuel af p init sch s0 = Ok (st, s1, ev) ->
  forall s, In (EvGrid s) ev -> (prodlen (s_axes s) <= 4294967295)%Z ->
  exists rows, grid_table p s = Ok (grid_columns p, rows) /\ Z.of_nat (length rows) = prodlen (s_axes s) /\
    forall idx x, is_node (s_axes s) idx x -> exists nd, nth_error (s_nodes s) (number (s_axes s) idx) = Some nd /\
      nth_error rows (number (s_axes s) idx) =
        Some (coordinates x ++ coordinates (nd_v nd) ++ [nd_m nd] ++ (if use_mibf p then [nd_fr nd] else [])).
Proof.
  intros G HG svd uabs fuel af p init sch s0 st s1 ev S0 H s Hs F.
  assert (K : grid_sized s /\ length (s_axes s) = dim).
  { destruct (sim_cases svd uabs _ _ _ _ _ _ _ _ _ H) as [(_ & _ & ->)|(ev1 & L & ->)]; [destruct Hs|].
    assert (Fo := loop_grid G svd uabs af p sch _ _ _ _ _ _ (or_introl S0 : mesh_known p (sim_start p s0)) L). rewrite Forall_forall in Fo.
    assert (D : In (EvGrid s) ev1).
    { apply in_app_or in Hs. destruct Hs as [Hs|Hs]; [destruct (save_sim p); cbn in Hs; intuition discriminate|]. apply in_app_or in Hs. destruct Hs as [Hs|Hs]; [auto|].
      destruct st; try destruct Hs. destruct (save_sim p); cbn in Hs; intuition discriminate. }
    exact (Fo _ D). }
  destruct K as (Z1 & Z2). destruct (grid_x_len G HG _ Z2 F) as (L1 & L2). unfold grid_sized in Z1.
  eexists. split; [rewrite (grid_table_spec p s _ L1 Z1)|split].
  - f_equal. f_equal. unfold grid_columns, vnames. clear -HG. destruct HG as [-> | ->]; cbn [dim Geo2 Geo3 Nat.eqb app]; reflexivity.
  - rewrite map_length, seq_length. pose proof (prodlen_nn (s_axes s)). lia.
  - intros idx x Hn. pose proof (grid_x_number G HG _ _ _ Z2 Hn) as Ex. 
    assert (Hlt : (number (s_axes s) idx < Z.to_nat (grid_nodes (s_axes s)))%nat) by (rewrite <- L1; apply nth_error_Some; congruence).
    exists (nth (number (s_axes s) idx) (s_nodes s) zero_node). split; [apply nth_error_nth'; lia|].
    rewrite nth_error_seq_map. destruct (Nat.ltb_spec (number (s_axes s) idx) (Z.to_nat (grid_nodes (s_axes s)))); [|lia].
    rewrite Nat.add_0_l. unfold raw_grid_row. rewrite (nth_error_nth _ _ _ Ex). reflexivity.
Qed.
(** A simulation that writes a grid file. *)
Example C55_ex : forall svd uabs, let p := ex_p (-1) true 1000 (e2 0 (-10)) true in exists af s1 ev,
  simulate svd uabs 1 af p true (fun _ => rev_sched) (ex_state p at_rest) = Ok (Finished, s1, ev) /\ s_step (ex_state p at_rest) = 0%Z /\
  In (EvGrid s1) ev /\ (prodlen (s_axes s1) <= 4294967295)%Z.
Proof.
  intros. destruct (ex_step svd uabs rev_sched (-1) true 1000 (e2 0 (-10)) true vzero vzero mzero mzero mzero mzero rev_valid) as (af1 & H1).
  destruct (ex_sim svd uabs (fun _ => rev_sched) (-1) true (e2 0 (-10)) true (fun _ => rev_valid)) as (af & H). destruct (H (af + af1)%nat 0%nat ltac:(lia)) as (s1 & s' & ev & _ & T & A & E).
  destruct (H1 (af + af1)%nat ltac:(lia)) as (s1' & A' & GO & _).
  assert (s1' = s1). { assert (Ok s1' = Ok s1) by (rewrite <- A', <- A; reflexivity). congruence. } subst s1'.
  exists (af + af1)%nat, s', ev. split; [exact E|]. split; [reflexivity|].
  split.
  - destruct (sim_cases svd uabs _ _ _ _ _ _ _ _ _ E) as [([K|[K|K]] & _)|(ev1 & L & ->)]; try discriminate. apply in_or_app. right. apply in_or_app. left.
    clear -L A T. set (q := ex_p (-1) true 1000 (e2 0 (-10)) true) in *. assert (Eq : end_frame q = 1%Z) by reflexivity. assert (Sv : save_frame q s' = [EvParticles s'; EvGrid s']) by reflexivity.
    clearbody q. cbn [sim_loop] in L. change (s_frame (sim_start q (ex_state q at_rest))) with 0%Z in L. rewrite Eq in L. cbn [Z.ltb Z.compare] in L.
    rewrite A in L. cbn [bind] in L. destruct (s_exit s1); [apply Ok_inj in L; congruence|]. cbv zeta in L. rewrite <- T in L. destruct (at_end q s').
    + apply Ok_inj in L. assert (ev1 = (if (s_frame s' =? s_frame s1)%Z then [] else save_frame q s') ++ save_frame q s') by congruence. subst ev1.
      apply in_or_app. right. rewrite Sv. right. now left.
    + apply bind_Ok in L. destruct L as (r & L & R). destruct (Z.ltb_spec (s_frame s') 1); [discriminate|]. apply Ok_inj in L. subst r. cbn [fst snd] in R.
      destruct (step_clock svd uabs _ _ _ _ s1 A) as (_ & Ef & _). destruct (Z.eqb_spec (s_frame s') (s_frame s1)) as [K|K]; [exfalso; rewrite Ef in K; cbn in K; lia|].
      apply Ok_inj in R. assert (ev1 = save_frame q s' ++ []) by congruence. subst ev1. rewrite Sv. right. now left.
  - rewrite T. destruct (tick_grid (ex_p (-1) true 1000 (e2 0 (-10)) true) s1) as (-> & _). exact (go_fit _ _ GO).
Qed.
Print Assumptions C55_grid_tables.
