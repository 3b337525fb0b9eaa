(** * PropEulerF: C91, the forces act on the grid in double precision, for every thread schedule and node order. *)
From Coq Require Import ZArith Reals Lra Lia List Bool Floats.SpecFloat Permutation.
From Flocq Require Import Core.
From Verif Require Import Num NumF NumR Tools Lin Types Objects Remesh Transfer Sampling Spec SpecF SpecGridF SpecMassF SpecBackF SpecForceF SpecPlateF ResProofs PlasticModels LinProofs GridProofs P2GProofs FloatBase FloatGrid FloatKernel FloatCont FloatPbc FloatSum FloatVel FloatForce ExSimF PropGridF PropGridLater PropPbcF PropMassF PropVelF PropBackF Objects PropPlateF.
Import ListNotations.
Local Open Scope R_scope.

Section Forces.
  Variable L : Libm.
  Hint Extern 0 (Num F) => exact (NumF L) : typeclass_instances.
  Context {G : Geo F}.
  Hypothesis HG : two_or_threeF G.
  Variable M : R.
  Variable p : Par F.
  Variable axes : list (Axis F).
  Variable P : Particles F.
  Variable n : nat.
  Hypothesis Hc : cloud_okF L M p (p_x P).
  Hypothesis Ha : axes_okF M p (p_x P) axes.
  Hypothesis Hp : (prodlen axes <= 4294967295)%Z.
  Hypothesis HC : consistent P n.
  Hypothesis Hs : spline p = Deg2.
  Variables V T g : R.
  Variables (dt : F) (grav : TV).
  Hypothesis Hv : speeds_okF L V p P.
  Hypothesis Hf : forces_okF T g p P dt grav.
  Hypothesis Hob : objects p = [].

  Lemma axes_len : (length axes = 2 \/ length axes = 3)%nat /\ (forall a, In a axes -> Z.of_nat (length (ax_co a)) <= 4294967295)%Z /\ Z.of_nat (length (resizeGrid (NA := NumF L) axes)) = prodlen axes.
  Proof.
    destruct Ha as (Ln & A). assert (D : (length axes = 2 \/ length axes = 3)%nat) by (destruct (dimF G HG) as [E|E]; rewrite Ln, E; auto). split; auto.
    assert (B : forall a, In a axes -> (Z.of_nat (length (ax_co a)) <= 4294967295)%Z).
    { intros a Hi. apply In_nth_error in Hi. destruct Hi as (k & Hk). destruct (A k a Hk) as (_ & I). pose proof (ia_n _ _ _ _ _ I) as In. pose proof (cl_M L M p _ Hc) as HM. rewrite INR_IZR_INZ in In. apply le_IZR. lra. }
    split; auto. unfold resizeGrid. rewrite repeat_length. pose proof (fun a Hi => ax_n_len a (B a Hi)) as X. unfold grid_nodes.
    destruct D as [D|D]; [destruct axes as [|ax [|ay [|az r]]]; try discriminate|destruct axes as [|ax [|ay [|az [|aw r]]]]; try discriminate]; cbn [map]; rewrite !X by (cbn; auto); revert Hp; unfold prodlen; cbn [fold_right]; intros Hp'; unfold wrapu.
    - rewrite Z.mod_small by nia. rewrite Z2Nat.id by nia. lia.
    - destruct (Z.eq_dec (Z.of_nat (length (ax_co az))) 0) as [Z|Z]; [rewrite Z, !Z.mul_0_r, Zmod_0_l; lia|].
      rewrite (Z.mod_small (Z.of_nat (length (ax_co ax)) * _)) by nia. rewrite Z.mod_small by nia. rewrite Z2Nat.id by nia. lia.
  Qed.
  Lemma node_forces : forall sched, thread_schedule sched n -> INR (n * Nat.pow 4 dim + length sched) <= bpow radix2 43 ->
    exists nodes, p2g p axes P sched (resizeGrid axes) = Ok nodes /\ length nodes = length (resizeGrid (NA := NumF L) axes) /\
      forall X nd, In nd nodes -> exists nd', euler_node (NA := NumF L) p [] dt grav X nd = Ok nd' /\
        forall k, (k < dim)%nat -> ffin (vget (nd_v nd') k) /\ Rabs (fval (vget (nd_v nd') k)) <= speed_after V T g p dt.
  Proof.
    intros sched Hsch Hcc. destruct axes_len as (AL1 & AL2 & AL3). pose proof eps_pos as E0. set (N := length (resizeGrid (NA := NumF L) axes)) in *. set (K := Nat.pow 4 dim) in *. set (c := (n * K + length sched)%nat) in *.
    assert (He : INR c * eps <= 1/512).
    { apply Rle_trans with (bpow radix2 43 * eps); [apply Rmult_le_compat_r; [unfold eps; lra|auto]|]. rewrite eps_bpow, <- bpow_plus. cbn. lra. }
    pose proof (all_items L HG M p axes P n Hc Ha Hp HC Hs) as AI. fold N K in AI. pose proof (sp_V _ _ _ _ Hv) as HV. pose proof (sp_dx _ _ _ _ Hv) as Hh.
    destruct Hf as [fT fg fh fvol fmass fdt ftau fgr]. pose proof (proj2 fmass) as Rma. pose proof (proj2 fvol) as Rvo. pose proof (proj2 fdt) as Rdt.
    assert (V0 : 0 < V) by (apply Rlt_le_trans with (bpow radix2 (-300)); [apply bpow_gt_0|lra]).
    assert (HV' : bpow radix2 (-800) <= V <= bpow radix2 400) by (split; [apply Rle_trans with (bpow radix2 (-300)); [apply bpow_le; lia|lra]|apply Rle_trans with (bpow radix2 300); [lra|apply bpow_le; lia]]).
    assert (HA' : bpow radix2 (-800) <= 33 * V <= bpow radix2 400).
    { split; [lra|]. apply Rle_trans with (bpow radix2 6 * bpow radix2 300); [change (bpow radix2 6) with 64; lra|]. rewrite <- bpow_plus. apply bpow_le. lia. }
    set (h := fval (dx p)) in *. set (fm := 301/100 * (T * / h)).
    assert (Rq : rg (-200) 200 (T * / h)) by (exact (rg_mul _ _ _ _ _ _ fT (rg_inv _ _ _ fh))).
    assert (Hfm : rg (-200) 210 fm) by (exact (rg_mul _ _ _ _ _ _ (rg_const (301/100) ltac:(lra)) Rq)).
    destruct (accumulate_Q L p N (forQ L p V (33 * V) fm) (forQ_mono L p V (33 * V) fm HV' HA' Hfm) (forQ_zero L HG p V (33 * V) fm) (forQ_merge L HG p V (33 * V) fm HV' HA' Hfm) axes P n HC K AI) with (sched := sched) as (nodes0 & Eg & Lg & Ig).
    - intros i xp vp B tau mui it Hi Ex Ev Et EB Hit. destruct (AI i Hi) as (_ & Io & x & Ex' & Es). rewrite Ex in Ex'. apply Ok_inj in Ex'. subst x.
      assert (Ix : In xp (p_x P)) by (apply rd_Ok in Ex; destruct Ex as (_ & Ex); now apply nth_error_In in Ex).
      assert (Iv : In vp (p_v P)) by (apply rd_Ok in Ev; destruct Ev as (_ & Ev); now apply nth_error_In in Ev).
      assert (It : In tau (p_tau P)) by (apply rd_Ok in Et; destruct Et as (_ & Et); now apply nth_error_In in Et).
      apply (forQ_keeps L HG p N V (33 * V) fm Hfm xp vp B tau mui it (Io it Hit)).
      + apply (velQ_keeps L HG p N V (33 * V) HV' HA'); auto.
        * intros k Hk. now apply (sp_v _ _ _ _ Hv).
        * intros Ef k Hk. apply (apic_bound L HG M p (p_x P) axes Hc Ha V HV Hh Hs xp (items_of L p axes P i) it B k Ix Es Hit Hk).
          intros k' l Hk' Hl. specialize (EB Ef). apply rd_Ok in EB. destruct EB as (_ & EB). apply nth_error_In in EB. now apply (sp_B _ _ _ _ Hv Ef).
      + intros k Hk. apply (force_bound L HG M p (p_x P) axes Hc Ha Hs fh T fT xp (items_of L p axes P i) it tau k Ix Es Hit Hk). intros k' l Hk' Hl. now apply ftau.
    - exact Hsch.
    - fold c. lra.
    - assert (Er : resizeGrid (NA := NumF L) axes = repeat zero_node N) by (unfold N, resizeGrid; now rewrite repeat_length). fold c in Ig.
      assert (Ln : length (map (p2g_finish_node (NA := NumF L) p) nodes0) = N) by (now rewrite map_length).
      assert (EB : forall X nd, In nd (map (p2g_finish_node (NA := NumF L) p) nodes0) -> exists nd', euler_node (NA := NumF L) p [] dt grav X nd = Ok nd' /\
        forall k, (k < dim)%nat -> ffin (vget (nd_v nd') k) /\ Rabs (fval (vget (nd_v nd') k)) <= speed_after V T g p dt).
      { intros X nd Hi. apply in_map_iff in Hi. destruct Hi as (nd0 & <- & Hi). apply In_nth_error in Hi. destruct Hi as (j & Ej). specialize (Ig j nd0 Ej). cbv beta in Ig. rewrite (weight_items L HG M p axes P n Hc Ha Hp HC Hs) in Ig.
        pose proof (proj2 (weight_range L HG M p axes P n Hc Ha Hp HC Hs j)) as WR. assert (W43 : weight_atF L p axes (p_x P) j <= bpow radix2 43) by (eapply Rle_trans; [exact WR|]; apply Rle_trans with (INR c); [apply le_INR; unfold c, K; lia|exact Hcc]).
        destruct (euler_bound L HG p V (33 * V) fm Hfm g dt grav Hob fdt fvol fmass (conj fg fgr) c nd0 _ X (35 * V) Ig He) as (nd' & En & Bn).
        - eapply Rle_trans; [exact W43|]. apply bpow_le. lia.
        - apply (rg_weak (0 + -300) (10 + 300)); [apply rg_mul; [apply rg_const; lra|exact HV]|lia|lia].
        - intros k Hk. destruct (finish_vel L HG p V (33 * V) HV' HA' c nd0 _ (proj1 Ig) ltac:(lra)) with (k := k) as (F1 & B1); auto.
          { eapply Rle_trans; [exact W43|]. apply bpow_le. lia. }
          split; auto. eapply Rle_trans; [exact B1|]. unfold UB_v. assert (e34 : (12 * INR c + 2) * eps <= 1/34) by (assert (2 * eps <= 1/1000) by (unfold eps; lra); lra). destruct (nltb (flip_ratio p) (nofZ 0)); nra.
        - exists nd'. split; auto. intros k Hk. destruct (Bn k Hk) as (F1 & B1). split; auto. eapply Rle_trans; [exact B1|]. unfold speed_after. fold h.
          assert (m0 : 0 < fval (particle_mass p)) by exact (rg_pos _ _ _ Rma). assert (h0 : 0 < h) by exact (rg_pos _ _ _ fh). assert (T0 : 0 < T) by exact (rg_pos _ _ _ fT). assert (v0 : 0 < fval (particle_volume p)) by exact (rg_pos _ _ _ Rvo). assert (d0 : 0 < fval dt) by exact (rg_pos _ _ _ Rdt).
          set (X0 := fval dt * fval (particle_volume p) * T / (fval (particle_mass p) * h)).
          assert (X00 : 0 < X0) by (unfold X0; apply Rdiv_lt_0_compat; [apply Rmult_lt_0_compat; [apply Rmult_lt_0_compat|]|apply Rmult_lt_0_compat]; auto).
          assert (EX : fval dt * fval (particle_volume p) * DD fm * / fval (particle_mass p) = 301/100 * 20000000000000000000000000 * X0) by (unfold DD, fm, wm, X0; field; lra).
          rewrite EX. assert (E26 : 10 ^ 26 = 100000000000000000000000000) by (cbn [pow]; lra). rewrite E26. nra. }
      exists (map (p2g_finish_node p) nodes0). split; [unfold p2g; rewrite Er, Eg; reflexivity|]. split; [exact Ln|exact EB].
  Qed.
  Lemma grid_forces : after_forces_okF L V T g p axes P n dt grav.
  Proof.
    intros sched order Hsch Hcc Ho. destruct axes_len as (AL1 & AL2 & AL3). destruct (node_forces sched Hsch Hcc) as (nodes & Eg & Ln & EB).
    assert (Ho' : Permutation order (seq 0 (length nodes))) by (now rewrite Ln).
    destruct (any_euler (NA := NumF L) (dx p) p [] dt grav axes order _ AL1 AL2 Hp Ho') as (nodes' & En & Ln' & Kn).
    { rewrite Ln. exact AL3. }
    { intros X nd Hi. destruct (EB X nd Hi) as (nd' & E1 & _). eauto. }
    exists nodes, nodes'. split; [exact Eg|]. split; [exact En|]. split; [now rewrite Ln', Ln|].
    intros nd k Hi Hk. destruct (Kn nd Hi) as (X & nd0 & H0 & E1). destruct (EB X nd0 H0) as (nd1 & E2 & B2). rewrite E1 in E2. apply Ok_inj in E2. subst nd1. now apply B2.
  Qed.
  (** Resting plates only reduce what the forces have done. *)
  Lemma grid_forces_plates : forall plates, use_mibf p = false -> (forall pl, In pl plates -> plate_restF pl /\ fric_okF (pl_fric pl)) -> speed_after V T g p dt <= bpow radix2 300 ->
    after_forces_plates_okF L V T g p plates axes P n dt grav.
  Proof.
    intros plates Hm Hpl HU sched order Hsch Hcc Ho. destruct axes_len as (AL1 & AL2 & AL3). destruct (node_forces sched Hsch Hcc) as (nodes & Eg & Ln & EB0).
    assert (EB : forall X nd, In nd nodes -> exists nd', euler_node (NA := NumF L) p plates dt grav X nd = Ok nd' /\
        forall k, (k < dim)%nat -> ffin (vget (nd_v nd') k) /\ Rabs (fval (vget (nd_v nd') k)) <= speed_after V T g p dt).
    { intros X nd Hi. destruct (EB0 X nd Hi) as (nd' & E & B). unfold euler_node in *. destruct (nltb (nofZ 0) (nd_m nd)); [|eauto]. cbv zeta in *.
      unfold boundaryCollision, objects_loop in E |- *. rewrite Hob in E |- *. cbn [foldM bind plates_loop fold_left] in E |- *. apply Ok_inj in E. subst nd'. cbn [nd_v] in B.
      eexists. split; [reflexivity|]. cbn [nd_v]. intros k Hk.
      match goal with |- context [plates_loop p ?fr plates ?Y ?v] => destruct (plates_all L HG p fr Y plates v) as (S & _) end.
      - intros pl I. rewrite Hm. now apply Hpl.
      - intros k' Hk'. destruct (B k' Hk') as (F1 & B1). split; [exact F1|lra].
      - destruct (S k Hk) as (F1 & B1). split; [exact F1|]. eapply Rle_trans; [apply between0_abs; exact B1|]. now apply B. }
    assert (Ho' : Permutation order (seq 0 (length nodes))) by (now rewrite Ln).
    destruct (any_euler (NA := NumF L) (dx p) p plates dt grav axes order _ AL1 AL2 Hp Ho') as (nodes' & En & Ln' & Kn).
    { rewrite Ln. exact AL3. }
    { intros X nd Hi. destruct (EB X nd Hi) as (nd' & E1 & _). eauto. }
    exists nodes, nodes'. split; [exact Eg|]. split; [exact En|]. split; [now rewrite Ln', Ln|].
    intros nd k Hi Hk. destruct (Kn nd Hi) as (X & nd0 & H0 & E1). destruct (EB X nd0 H0) as (nd1 & E2 & B2). rewrite E1 in E2. apply Ok_inj in E2. subst nd1. now apply B2.
  Qed.
End Forces.

(** ** C91 *)
(** On the first grid. *)
Theorem C91_first_grid : forall (L : Libm) (G : Geo F), two_or_threeF G ->
  forall (af : nat) (M V T g : R) (p : Par F) (P : Particles F) (n : nat) am dt grav, let NF := NumF L in
  cloud_okF L M p (p_x P) -> consistent P n -> spline p = Deg2 -> objects p = [] -> speeds_okF L V p P -> forces_okF T g p P dt grav ->
  remeshFixedInit af p 2 (p_x P) = Ok am -> (prodlen (map fst am) <= 4294967295)%Z ->
  after_forces_okF L V T g p (map fst am) P n dt grav.
Proof.
  intros L G HG af M V T g p P n am dt grav NF Hc HC Hs Hob Hv Hf H Hp. unfold NF in *. clear NF. pose proof (init_axes L G af M p (p_x P) am Hc H) as Ha.
  exact (grid_forces L HG M p _ P n Hc Ha Hp HC Hs V T g dt grav Hv Hf Hob).
Qed.
(** The same at resting plates, with friction in two dimensions (in three dimensions without: see C93_friction_3D_refuted). *)
Theorem C91_resting_plates_partial : forall (L : Libm) (G : Geo F), two_or_threeF G ->
  forall (af : nat) (M V T g : R) (p : Par F) (plates : list (Plate F)) (P : Particles F) (n : nat) am dt grav, let NF := NumF L in
  cloud_okF L M p (p_x P) -> consistent P n -> spline p = Deg2 -> objects p = [] -> use_mibf p = false -> speeds_okF L V p P -> forces_okF T g p P dt grav ->
  (forall pl, In pl plates -> plate_restF pl /\ fric_okF (pl_fric pl)) -> speed_after V T g p dt <= bpow radix2 300 ->
  remeshFixedInit af p 2 (p_x P) = Ok am -> (prodlen (map fst am) <= 4294967295)%Z ->
  after_forces_plates_okF L V T g p plates (map fst am) P n dt grav.
Proof.
  intros L G HG af M V T g p plates P n am dt grav NF Hc HC Hs Hob Hm Hv Hf Hpl HU H Hp. unfold NF in *. clear NF. pose proof (init_axes L G af M p (p_x P) am Hc H) as Ha.
  exact (grid_forces_plates L HG M p _ P n Hc Ha Hp HC Hs V T g dt grav Hv Hf Hob plates Hm Hpl HU).
Qed.
(** On later grids, with the exception of [C86_later_grids_cover_partial]. *)
Theorem C91_later_grids_partial : forall (L : Libm) (G : Geo F), two_or_threeF G ->
  forall (af af' : nat) (M V T g : R) (p : Par F) (xs0 : list TV) (P : Particles F) (n : nat) am axes dt grav, let NF := NumF L in
  cloud_okF L M p xs0 -> cloud_okF L M p (p_x P) -> fval (dx p) <= 1048576 -> consistent P n -> spline p = Deg2 -> objects p = [] -> speeds_okF L V p P -> forces_okF T g p P dt grav ->
  remeshFixedInit af p 2 xs0 = Ok am -> remeshFixedCont af' p (p_x P) (map snd am) = Ok axes -> (prodlen axes <= 4294967295)%Z ->
  (forall x k m, In x (p_x P) -> nth_error (map snd am) k = Some m -> off_cell_edgesF M p m (vget x k)) ->
  after_forces_okF L V T g p axes P n dt grav.
Proof.
  intros L G HG af af' M V T g p xs0 P n am axes dt grav NF Hc0 Hc Hd1 HC Hs Hob Hv Hf H0 H Hp Ho. unfold NF in *. clear NF.
  assert (Ha : axes_okF M p (p_x P) axes) by (eapply cont_axes; [exact Hc0| | | | |]; eauto).
  exact (grid_forces L HG M p _ P n Hc Ha Hp HC Hs V T g dt grav Hv Hf Hob).
Qed.
(** On the grid of a periodic simulation; [P] holds the particles and their ghosts. *)
Theorem C91_periodic_partial : forall (L : Libm) (G : Geo F), two_or_threeF G ->
  forall (af : nat) (M V T g : R) (p : Par F) (P : Particles F) (n : nat) axes dt grav, let NF := NumF L in
  cloud_okF L M p (p_x P) -> box_okF M p -> (forall x, In x (p_x P) -> near_boxF M p x) -> consistent P n -> spline p = Deg2 -> objects p = [] -> speeds_okF L V p P -> forces_okF T g p P dt grav ->
  remeshFixed af p 4 = Ok axes -> (prodlen axes <= 4294967295)%Z ->
  after_forces_okF L V T g p axes P n dt grav.
Proof.
  intros L G HG af M V T g p P n axes dt grav NF Hc Hb Hn HC Hs Hob Hv Hf H Hp. unfold NF in *. clear NF. pose proof (fixed_axes L G HG af M p (p_x P) axes Hc Hb Hn H) as Ha.
  exact (grid_forces L HG M p _ P n Hc Ha Hp HC Hs V T g dt grav Hv Hf Hob).
Qed.
(** From the particles to the particles: transfer, forces, reading back and moving on the first grid.  Partial: because
    [speed_after] allows for nodes of nearly no mass, the time step condition [dt_okF] admits only nearly stress-free material. *)
Theorem C91_whole_step_partial : forall (L : Libm) (G : Geo F), two_or_threeF G ->
  forall plast (af : nat) (M V T g : R) (p : Par F) (P P1 P2 : Particles F) (n : nat) am nodes nodes' dt grav sched order o1 o2 f1 f2, let NF := NumF L in let U := speed_after V T g p dt in
  cloud_okF L M p (p_x P) -> consistent P n -> spline p = Deg2 -> objects p = [] -> use_pbc p = false -> change_pos p = false -> speeds_okF L V p P -> forces_okF T g p P dt grav ->
  U <= bpow radix2 300 -> dt_okF U p dt ->
  remeshFixedInit af p 2 (p_x P) = Ok am -> (prodlen (map fst am) <= 4294967295)%Z ->
  thread_schedule sched n -> INR (n * Nat.pow 4 dim + length sched) <= bpow radix2 43 -> Permutation order (seq 0 (length (resizeGrid (map fst am)))) -> Permutation o1 (seq 0 n) -> Permutation o2 (seq 0 n) ->
  p2g p (map fst am) P sched (resizeGrid (map fst am)) = Ok nodes -> euler p [] dt grav (map fst am) order nodes = Ok nodes' ->
  g2p plast p (map fst am) nodes' dt o1 P = Ok (P1, f1) -> positionUpdate p dt o2 P1 = Ok (P2, f2) ->
  read_back_okF M U p dt P P1 P2.
Proof.
  intros L G HG plast af M V T g p P P1 P2 n am nodes nodes' dt grav sched order o1 o2 f1 f2 NF U Hc HC Hs Hob Hpb Hch Hv Hf HU Hd H Hp Hsch Hcc Ho Ho1 Ho2 E1 E2 E3 E4. unfold NF in *. clear NF.
  destruct (C91_first_grid L G HG af M V T g p P n am dt grav Hc HC Hs Hob Hv Hf H Hp sched order Hsch Hcc Ho) as (n1 & n2 & Q1 & Q2 & Ln & B).
  assert (n1 = nodes) as -> by exact (Ok_inj _ _ _ (eq_trans (eq_sym Q1) E1)). assert (n2 = nodes') as -> by exact (Ok_inj _ _ _ (eq_trans (eq_sym Q2) E2)).
  refine (C90_first_grid L G HG plast af M U p P P1 P2 n am nodes' dt o1 o2 f1 f2 Hc HC Hs Hpb Hch H Hp _ Hd Ho1 Ho2 E3 E4).
  constructor; [exact Ln| |exact (sp_dx _ _ _ _ Hv)|exact B]. split; [|exact HU]. pose proof (sp_V _ _ _ _ Hv) as HV. destruct Hf as [fT fg fh fvol fmass fdt _ _].
  assert (V0 : 0 < V) by (apply Rlt_le_trans with (bpow radix2 (-300)); [apply bpow_gt_0|lra]).
  assert (m0 : 0 < fval (particle_mass p)) by exact (rg_pos _ _ _ (proj2 fmass)). assert (h0 : 0 < fval (dx p)) by exact (rg_pos _ _ _ fh). assert (T0 : 0 < T) by exact (rg_pos _ _ _ fT). assert (v0 : 0 < fval (particle_volume p)) by exact (rg_pos _ _ _ (proj2 fvol)). assert (d0 : 0 < fval dt) by exact (rg_pos _ _ _ (proj2 fdt)). assert (g0 : 0 < g) by exact (rg_pos _ _ _ fg).
  unfold U, speed_after. assert (0 < fval dt * g) by (now apply Rmult_lt_0_compat).
  assert (0 < 10 ^ 26 * (fval dt * fval (particle_volume p) * T / (fval (particle_mass p) * fval (dx p)))) by (apply Rmult_lt_0_compat; [apply pow_lt; lra|]; apply Rdiv_lt_0_compat; [apply Rmult_lt_0_compat; [apply Rmult_lt_0_compat|]|apply Rmult_lt_0_compat]; auto). lra.
Qed.
(** With resting plates on later grids, with the exception of [C86_later_grids_cover_partial]. *)
Theorem C91_plates_later_partial : forall (L : Libm) (G : Geo F), two_or_threeF G ->
  forall (af af' : nat) (M V T g : R) (p : Par F) (xs0 : list TV) (plates : list (Plate F)) (P : Particles F) (n : nat) am axes dt grav, let NF := NumF L in
  cloud_okF L M p xs0 -> cloud_okF L M p (p_x P) -> fval (dx p) <= 1048576 -> consistent P n -> spline p = Deg2 -> objects p = [] -> use_mibf p = false -> (forall pl, In pl plates -> plate_restF pl /\ fric_okF (pl_fric pl)) -> speeds_okF L V p P -> forces_okF T g p P dt grav -> speed_after V T g p dt <= bpow radix2 300 ->
  remeshFixedInit af p 2 xs0 = Ok am -> remeshFixedCont af' p (p_x P) (map snd am) = Ok axes -> (prodlen axes <= 4294967295)%Z ->
  (forall x k m, In x (p_x P) -> nth_error (map snd am) k = Some m -> off_cell_edgesF M p m (vget x k)) ->
  after_forces_plates_okF L V T g p plates axes P n dt grav.
Proof.
  intros L G HG af af' M V T g p xs0 plates P n am axes dt grav NF Hc0 Hc Hd1 HC Hs Hob Hm Hpl Hv Hf HU H0 H Hp Ho. unfold NF in *. clear NF.
  assert (Ha : axes_okF M p (p_x P) axes) by (eapply cont_axes; [exact Hc0| | | | |]; eauto).
  exact (grid_forces_plates L HG M p _ P n Hc Ha Hp HC Hs V T g dt grav Hv Hf Hob plates Hm Hpl HU).
Qed.
(** With resting plates on the grid of a periodic simulation; [P] holds the particles and their ghosts. *)
Theorem C91_plates_periodic_partial : forall (L : Libm) (G : Geo F), two_or_threeF G ->
  forall (af : nat) (M V T g : R) (p : Par F) (plates : list (Plate F)) (P : Particles F) (n : nat) axes dt grav, let NF := NumF L in
  cloud_okF L M p (p_x P) -> box_okF M p -> (forall x, In x (p_x P) -> near_boxF M p x) -> consistent P n -> spline p = Deg2 -> objects p = [] -> use_mibf p = false -> (forall pl, In pl plates -> plate_restF pl /\ fric_okF (pl_fric pl)) -> speeds_okF L V p P -> forces_okF T g p P dt grav -> speed_after V T g p dt <= bpow radix2 300 ->
  remeshFixed af p 4 = Ok axes -> (prodlen axes <= 4294967295)%Z ->
  after_forces_plates_okF L V T g p plates axes P n dt grav.
Proof.
  intros L G HG af M V T g p plates P n axes dt grav NF Hc Hb Hn HC Hs Hob Hm Hpl Hv Hf HU H Hp. unfold NF in *. clear NF. pose proof (fixed_axes L G HG af M p (p_x P) axes Hc Hb Hn H) as Ha.
  exact (grid_forces_plates L HG M p _ P n Hc Ha Hp HC Hs V T g dt grav Hv Hf Hob plates Hm Hpl HU).
Qed.
(** The whole step of [C91_whole_step_partial] at resting plates. *)
Theorem C91_plates_whole_step_partial : forall (L : Libm) (G : Geo F), two_or_threeF G ->
  forall plast (af : nat) (M V T g : R) (p : Par F) (plates : list (Plate F)) (P P1 P2 : Particles F) (n : nat) am nodes nodes' dt grav sched order o1 o2 f1 f2, let NF := NumF L in let U := speed_after V T g p dt in
  cloud_okF L M p (p_x P) -> consistent P n -> spline p = Deg2 -> objects p = [] -> use_mibf p = false -> (forall pl, In pl plates -> plate_restF pl /\ fric_okF (pl_fric pl)) -> use_pbc p = false -> change_pos p = false -> speeds_okF L V p P -> forces_okF T g p P dt grav ->
  U <= bpow radix2 300 -> dt_okF U p dt ->
  remeshFixedInit af p 2 (p_x P) = Ok am -> (prodlen (map fst am) <= 4294967295)%Z ->
  thread_schedule sched n -> INR (n * Nat.pow 4 dim + length sched) <= bpow radix2 43 -> Permutation order (seq 0 (length (resizeGrid (map fst am)))) -> Permutation o1 (seq 0 n) -> Permutation o2 (seq 0 n) ->
  p2g p (map fst am) P sched (resizeGrid (map fst am)) = Ok nodes -> euler p plates dt grav (map fst am) order nodes = Ok nodes' ->
  g2p plast p (map fst am) nodes' dt o1 P = Ok (P1, f1) -> positionUpdate p dt o2 P1 = Ok (P2, f2) ->
  read_back_okF M U p dt P P1 P2.
Proof.
  intros L G HG plast af M V T g p plates P P1 P2 n am nodes nodes' dt grav sched order o1 o2 f1 f2 NF U Hc HC Hs Hob Hm Hpl Hpb Hch Hv Hf HU Hd H Hp Hsch Hcc Ho Ho1 Ho2 E1 E2 E3 E4. unfold NF in *. clear NF.
  destruct (C91_resting_plates_partial L G HG af M V T g p plates P n am dt grav Hc HC Hs Hob Hm Hv Hf Hpl HU H Hp sched order Hsch Hcc Ho) as (n1 & n2 & Q1 & Q2 & Ln & B).
  assert (n1 = nodes) as -> by exact (Ok_inj _ _ _ (eq_trans (eq_sym Q1) E1)). assert (n2 = nodes') as -> by exact (Ok_inj _ _ _ (eq_trans (eq_sym Q2) E2)).
  refine (C90_first_grid L G HG plast af M U p P P1 P2 n am nodes' dt o1 o2 f1 f2 Hc HC Hs Hpb Hch H Hp _ Hd Ho1 Ho2 E3 E4).
  constructor; [exact Ln| |exact (sp_dx _ _ _ _ Hv)|exact B]. split; [|exact HU]. pose proof (sp_V _ _ _ _ Hv) as HV. destruct Hf as [fT fg fh fvol fmass fdt _ _].
  assert (V0 : 0 < V) by (apply Rlt_le_trans with (bpow radix2 (-300)); [apply bpow_gt_0|lra]).
  assert (m0 : 0 < fval (particle_mass p)) by exact (rg_pos _ _ _ (proj2 fmass)). assert (h0 : 0 < fval (dx p)) by exact (rg_pos _ _ _ fh). assert (T0 : 0 < T) by exact (rg_pos _ _ _ fT). assert (v0 : 0 < fval (particle_volume p)) by exact (rg_pos _ _ _ (proj2 fvol)). assert (d0 : 0 < fval dt) by exact (rg_pos _ _ _ (proj2 fdt)). assert (g0 : 0 < g) by exact (rg_pos _ _ _ fg).
  unfold U, speed_after. assert (0 < fval dt * g) by (now apply Rmult_lt_0_compat).
  assert (0 < 10 ^ 26 * (fval dt * fval (particle_volume p) * T / (fval (particle_mass p) * fval (dx p)))) by (apply Rmult_lt_0_compat; [apply pow_lt; lra|]; apply Rdiv_lt_0_compat; [apply Rmult_lt_0_compat; [apply Rmult_lt_0_compat|]|apply Rmult_lt_0_compat]; auto). lra.
Qed.

(** ** A case that meets the hypotheses: the two particles of C89 under a pressure of 50, gravity -9.81, dt = 1/2000. *)
Section Ex.
  Local Instance nfe : Num F := NumF ExSimF.libm0.
  Local Existing Instance Geo2.
  Definition forF_P : @Particles F (Geo2 F) :=
    mkParticles (p_x velF_P) (p_v velF_P) (p_pic velF_P) (p_flip velF_P) (p_hist velF_P) (p_F velF_P) (p_B velF_P) [mscale mident (nofZ (-50)); mzero].
  Lemma ordi : forall x, / 1024 <= x <= 1024 -> ordinary x.
  Proof. intros x H. split; [apply Rle_trans with (bpow radix2 (-10)); [apply bpow_le; lia|change (bpow radix2 (-10)) with (/ 1024); lra]|apply Rle_trans with (bpow radix2 10); [change (bpow radix2 10) with 1024; lra|apply bpow_le; lia]]. Qed.
  Lemma ordi' : forall x, / 1048576 <= x <= 1024 -> ordinary x.
  Proof. intros x H. split; [apply Rle_trans with (bpow radix2 (-20)); [apply bpow_le; lia|change (bpow radix2 (-20)) with (/ 1048576); lra]|apply Rle_trans with (bpow radix2 10); [change (bpow radix2 10) with 1024; lra|apply bpow_le; lia]]. Qed.
  Lemma forF_ok : cloud_okF ExSimF.libm0 8 backF_p (p_x forF_P) /\ consistent forF_P 2 /\ speeds_okF ExSimF.libm0 4 backF_p forF_P /\ forces_okF 64 10 backF_p forF_P backF_dt (gravity0 backF_p).
  Proof.
    destruct backF_cloud as (Hc & Hv). destruct Hv as [v1 v2 v3 v4]. split; [exact Hc|]. split; [constructor; reflexivity|]. split; [constructor; [exact v1|exact v2|exact v3|exact v4]|].
    assert (Ed : backF_dt = S754_finite false 4611686018427388 (-63)) by (vm_compute; reflexivity).
    assert (Ex : dx backF_p = S754_finite false 7205759403792794 (-56)) by (vm_compute; reflexivity).
    assert (B63 : bpow radix2 (-63) = / 9223372036854775808) by (cbn; lra). assert (B56 : bpow radix2 (-56) = / 72057594037927936) by (cbn; lra).
    destruct (fofZ_spec 1 ltac:(lia)) as (F1 & V1). destruct (fofZ_spec 0 ltac:(lia)) as (F0 & V0).
    assert (One : ffin (fofZ 1) /\ ordinary (fval (fofZ 1))) by (split; auto; rewrite V1; apply ordi; lra).
    assert (Zr : ffin (fofZ 0) /\ Rabs (fval (fofZ 0)) <= 64) by (split; auto; rewrite V0, Rabs_R0; lra).
    constructor.
    - apply ordi; lra.
    - apply ordi; lra.
    - rewrite Ex, fval_fin, B56. cbn [sfZ]. apply ordi; lra.
    - exact One.
    - exact One.
    - rewrite Ed. split; [split; reflexivity|]. rewrite fval_fin, B63. cbn [sfZ]. apply ordi'; lra.
    - intros tau k l [<-|[<-|[]]] Hk Hl.
      + assert (E50 : @nmul F nfe (nofZ 1) (nofZ (-50)) = fofZ (-50)) by (vm_compute; reflexivity). assert (E0 : @nmul F nfe (nofZ 0) (nofZ (-50)) = S754_zero true) by (vm_compute; reflexivity).
        destruct (fofZ_spec (-50) ltac:(lia)) as (F5 & V5).
        assert (Q5 : ffin (@nmul F nfe (nofZ 1) (nofZ (-50))) /\ Rabs (fval (@nmul F nfe (nofZ 1) (nofZ (-50)))) <= 64) by (rewrite E50; split; auto; rewrite V5; apply Rabs_le; lra).
        assert (Q0 : ffin (@nmul F nfe (nofZ 0) (nofZ (-50))) /\ Rabs (fval (@nmul F nfe (nofZ 0) (nofZ (-50)))) <= 64) by (rewrite E0; split; [split; reflexivity|]; unfold fval; cbn; rewrite Rabs_R0; lra).
        destruct k as [|[|k]]; try (cbn in Hk; lia); destruct l as [|[|l]]; try (cbn in Hl; lia); [exact Q5|exact Q0|exact Q0|exact Q5].
      + destruct k as [|[|k]]; try (cbn in Hk; lia); destruct l as [|[|l]]; try (cbn in Hl; lia); exact Zr.
    - intros k Hk. assert (Eg : fofQ (-981) 100 = S754_finite true 5522539043063071 (-49)) by (vm_compute; reflexivity). assert (B49 : bpow radix2 (-49) = / 562949953421312) by (cbn; lra).
      destruct k as [|[|k]]; try (cbn in Hk; lia).
      + change (vget (gravity0 backF_p) 0) with (fofZ 0). split; auto. rewrite V0, Rabs_R0. lra.
      + change (vget (gravity0 backF_p) 1) with (fofQ (-981) 100). rewrite Eg. split; [split; reflexivity|]. rewrite fval_fin, B49. cbn [sfZ]. apply Rabs_le. lra.
  Qed.
  Example C91_ex : exists am nodes nodes', remeshFixedInit 20 backF_p 2 (p_x forF_P) = Ok am /\
    p2g backF_p (map fst am) forF_P massF_sched (resizeGrid (map fst am)) = Ok nodes /\ euler backF_p [] backF_dt (gravity0 backF_p) (map fst am) (rev (seq 0 (length (resizeGrid (map fst am))))) nodes = Ok nodes' /\
    forall nd k, In nd nodes' -> (k < 2)%nat -> ffin (vget (nd_v nd) k) /\ Rabs (fval (vget (nd_v nd) k)) <= speed_after 4 64 10 backF_p backF_dt.
  Proof.
    assert (K : exists am, remeshFixedInit 20 backF_p 2 (p_x forF_P) = Ok am /\ (prodlen (map fst am) <=? 4294967295)%Z = true) by (apply ok_intro; vm_compute; reflexivity).
    destruct K as (am & Ea & Kl). apply Z.leb_le in Kl. destruct forF_ok as (Hc & HC & Hv & Hf).
    destruct (C91_first_grid ExSimF.libm0 (Geo2 F) (or_introl eq_refl) 20 8 4 64 10 backF_p forF_P 2 am backF_dt (gravity0 backF_p) Hc HC eq_refl eq_refl Hv Hf Ea Kl massF_sched (rev (seq 0 (length (resizeGrid (map fst am)))))) as (nodes & nodes' & E1 & E2 & _ & B).
    - unfold thread_schedule, massF_sched. cbn. apply perm_swap.
    - assert (C : INR (2 * Nat.pow 4 (@dim F (Geo2 F)) + length massF_sched) = 34) by (cbn; lra). rewrite C. apply Rle_trans with (bpow radix2 10); [cbn; lra|apply bpow_le; lia].
    - symmetry. apply Permutation_rev.
    - exists am, nodes, nodes'. split; [exact Ea|]. split; [exact E1|]. split; [exact E2|]. exact B.
  Qed.
  (** The same above a resting floor with friction 1/2, in the corner of C93. *)
  Example C91_plates_ex : exists am nodes nodes', remeshFixedInit 20 backF_p 2 (p_x forF_P) = Ok am /\
    p2g backF_p (map fst am) forF_P massF_sched (resizeGrid (map fst am)) = Ok nodes /\ euler backF_p [cornerF pbottom; cornerF pleft] backF_dt (gravity0 backF_p) (map fst am) (rev (seq 0 (length (resizeGrid (map fst am))))) nodes = Ok nodes' /\
    forall nd k, In nd nodes' -> (k < 2)%nat -> ffin (vget (nd_v nd) k) /\ Rabs (fval (vget (nd_v nd) k)) <= speed_after 4 64 10 backF_p backF_dt.
  Proof.
    assert (K : exists am, remeshFixedInit 20 backF_p 2 (p_x forF_P) = Ok am /\ (prodlen (map fst am) <=? 4294967295)%Z = true) by (apply ok_intro; vm_compute; reflexivity).
    destruct K as (am & Ea & Kl). apply Z.leb_le in Kl. destruct forF_ok as (Hc & HC & Hv & Hf).
    assert (Z0 : ffin (fofZ 0) /\ fval (fofZ 0) = 0) by (apply (fofZ_spec 0); lia).
    assert (Fr : fric_okF (G := Geo2 F) (fofQ 1 2)).
    { assert (E : fofQ 1 2 = S754_finite false 4503599627370496 (-53)) by (vm_compute; reflexivity). rewrite E. split; [split; reflexivity|]. rewrite fval_fin. replace (bpow radix2 (-53)) with (/ 9007199254740992) by (cbn; lra). cbn [sfZ]. split; [|intros C; discriminate]. split; [lra|]. apply Rle_trans with (bpow radix2 0); [cbn; lra|apply bpow_le; lia]. }
    assert (Hpl : forall pl, In pl [cornerF pbottom; cornerF pleft] -> plate_restF (G := Geo2 F) pl /\ fric_okF (G := Geo2 F) (pl_fric pl)).
    { intros pl [<-|[<-|[]]]; (split; [intros k Hk; destruct k as [|[|k]]; exact Z0|exact Fr]). }
    assert (HU : speed_after 4 64 10 backF_p backF_dt <= bpow radix2 300).
    { assert (Ed : backF_dt = S754_finite false 4611686018427388 (-63)) by (vm_compute; reflexivity).
      assert (Ex : dx backF_p = S754_finite false 7205759403792794 (-56)) by (vm_compute; reflexivity).
      assert (B63 : bpow radix2 (-63) = / 9223372036854775808) by (cbn; lra). assert (B56 : bpow radix2 (-56) = / 72057594037927936) by (cbn; lra).
      destruct (fofZ_spec 1 ltac:(lia)) as (F1 & V1). apply Rle_trans with (bpow radix2 100); [|apply bpow_le; lia].
      assert (B100 : bpow radix2 100 = 1267650600228229401496703205376) by (cbn; lra). rewrite B100.
      unfold speed_after. change (particle_volume backF_p) with (fofZ 1). change (particle_mass backF_p) with (fofZ 1). rewrite V1, Ed, Ex, !fval_fin, B63, B56. cbn [sfZ]. assert (E26 : 10 ^ 26 = 100000000000000000000000000) by (cbn [pow]; lra). rewrite E26. lra. }
    destruct (C91_resting_plates_partial ExSimF.libm0 (Geo2 F) (or_introl eq_refl) 20 8 4 64 10 backF_p [cornerF pbottom; cornerF pleft] forF_P 2 am backF_dt (gravity0 backF_p) Hc HC eq_refl eq_refl eq_refl Hv Hf Hpl HU Ea Kl massF_sched (rev (seq 0 (length (resizeGrid (map fst am)))))) as (nodes & nodes' & E1 & E2 & _ & B).
    - unfold thread_schedule, massF_sched. cbn. apply perm_swap.
    - assert (C : INR (2 * Nat.pow 4 (@dim F (Geo2 F)) + length massF_sched) = 34) by (cbn; lra). rewrite C. apply Rle_trans with (bpow radix2 10); [cbn; lra|apply bpow_le; lia].
    - symmetry. apply Permutation_rev.
    - exists am, nodes, nodes'. split; [exact Ea|]. split; [exact E1|]. split; [exact E2|]. exact B.
  Qed.
  (** The whole step, without stress. *)
  Example C91_whole_ex : exists am nodes nodes' P1 P2 f1 f2, remeshFixedInit 20 backF_p 2 gridF_xs = Ok am /\
    p2g backF_p (map fst am) velF_P massF_sched (resizeGrid (map fst am)) = Ok nodes /\ euler backF_p [] backF_dt (gravity0 backF_p) (map fst am) (rev (seq 0 (length (resizeGrid (map fst am))))) nodes = Ok nodes' /\
    g2p still backF_p (map fst am) nodes' backF_dt [1; 0]%nat velF_P = Ok (P1, f1) /\ positionUpdate backF_p backF_dt [0; 1]%nat P1 = Ok (P2, f2) /\
    read_back_okF 8 (speed_after 4 (bpow radix2 (-90)) 10 backF_p backF_dt) backF_p backF_dt velF_P P1 P2.
  Proof.
    assert (K : exists r, (am <- remeshFixedInit 20 backF_p 2 gridF_xs ;; nodes <- p2g backF_p (map fst am) velF_P massF_sched (resizeGrid (map fst am)) ;; nodes' <- euler backF_p [] backF_dt (gravity0 backF_p) (map fst am) (rev (seq 0 (length (resizeGrid (map fst am))))) nodes ;; r1 <- g2p still backF_p (map fst am) nodes' backF_dt [1; 0]%nat velF_P ;; r2 <- positionUpdate backF_p backF_dt [0; 1]%nat (fst r1) ;; Ok (am, nodes, nodes', r1, r2)) = Ok r /\ ((prodlen (map fst (fst (fst (fst (fst r))))) <=? 4294967295)%Z) = true) by (apply ok_intro; vm_compute; reflexivity).
    destruct K as (((((am & nodes) & nodes') & r1) & r2) & E & K). cbn [fst snd] in K. apply Z.leb_le in K.
    apply bind_Ok in E. destruct E as (am0 & Ea & E). apply bind_Ok in E. destruct E as (nodes0 & Eg & E). apply bind_Ok in E. destruct E as (nodes1 & Ee & E). apply bind_Ok in E. destruct E as ((P1 & f1) & E1 & E). apply bind_Ok in E. destruct E as ((P2 & f2) & E2 & E).
    cbn [fst] in E2. apply Ok_inj in E. do 4 (apply pair_equal_spec in E; destruct E as (E & _)). subst am0.
    exists am, nodes0, nodes1, P1, P2, f1, f2. split; [exact Ea|]. split; [exact Eg|]. split; [exact Ee|]. split; [exact E1|]. split; [exact E2|].
    destruct backF_cloud as (Hc & Hv). destruct velF_ok as (_ & HC & Hs & _). destruct forF_ok as (_ & _ & _ & Hf). destruct Hf as [fT fg fh fvol fmass fdt ftau fgr].
    assert (B90 : bpow radix2 (-90) = / 1237940039285380274899124224) by (cbn; lra).
    assert (Hf : forces_okF (bpow radix2 (-90)) 10 backF_p velF_P backF_dt (gravity0 backF_p)).
    { constructor; [split; apply bpow_le; lia|exact fg|exact fh|exact fvol|exact fmass|exact fdt| |exact fgr].
      destruct (fofZ_spec 0 ltac:(lia)) as (F0 & V0). assert (Zr : ffin (fofZ 0) /\ Rabs (fval (fofZ 0)) <= bpow radix2 (-90)) by (split; auto; rewrite V0, Rabs_R0; apply bpow_ge_0).
      intros tau k l [<-|[<-|[]]] Hk Hl; (destruct k as [|[|k]]; try (cbn in Hk; lia); destruct l as [|[|l]]; try (cbn in Hl; lia); exact Zr). }
    assert (Ed : backF_dt = S754_finite false 4611686018427388 (-63)) by (vm_compute; reflexivity).
    assert (Ex : dx backF_p = S754_finite false 7205759403792794 (-56)) by (vm_compute; reflexivity).
    assert (B63 : bpow radix2 (-63) = / 9223372036854775808) by (cbn; lra). assert (B56 : bpow radix2 (-56) = / 72057594037927936) by (cbn; lra).
    destruct (fofZ_spec 1 ltac:(lia)) as (F1 & V1).
    assert (Vd : 0 < fval backF_dt <= 1/1999) by (rewrite Ed, fval_fin, B63; cbn [sfZ]; lra). assert (Vx : 99/1000 <= fval (dx backF_p)) by (rewrite Ex, fval_fin, B56; cbn [sfZ]; lra).
    assert (HU : 0 <= speed_after 4 (bpow radix2 (-90)) 10 backF_p backF_dt <= 145).
    { unfold speed_after. change (particle_volume backF_p) with (fofZ 1). change (particle_mass backF_p) with (fofZ 1). rewrite V1, B90, Rmult_1_l, Rmult_1_r. set (x := fval (dx backF_p)) in *. set (d := fval backF_dt) in *.
      assert (E26 : 10 ^ 26 = 100000000000000000000000000) by (cbn [pow]; lra). rewrite E26.
      assert (Ix : 0 < / x <= 1000/99) by (split; [apply Rinv_0_lt_compat; lra|replace (1000/99) with (/ (99/1000)) by lra; apply Rinv_le_contravar; lra]).
      assert (Dx : 0 <= d * / x <= 1/1999 * (1000/99)) by (split; [apply Rmult_le_pos; lra|apply Rmult_le_compat; lra]). unfold Rdiv in Dx |- *.
      replace (d * / 1237940039285380274899124224 * / x) with (d * / x * / 1237940039285380274899124224) by ring. lra. }
    refine (C91_whole_step_partial ExSimF.libm0 (Geo2 F) (or_introl eq_refl) still 20 8 4 (bpow radix2 (-90)) 10 backF_p velF_P P1 P2 2 am nodes0 nodes1 backF_dt (gravity0 backF_p) massF_sched (rev (seq 0 (length (resizeGrid (map fst am))))) [1; 0]%nat [0; 1]%nat f1 f2 Hc HC eq_refl eq_refl eq_refl eq_refl Hv Hf _ _ Ea K _ _ _ _ _ Eg Ee E1 E2).
    - apply Rle_trans with (bpow radix2 8); [change (bpow radix2 8) with 256; lra|apply bpow_le; lia].
    - split; [rewrite Ed; split; reflexivity|]. split; [lra|]. apply Rle_trans with (1/1999 * 145); [apply Rmult_le_compat; lra|lra].
    - unfold thread_schedule, massF_sched. cbn. apply perm_swap.
    - assert (C : INR (2 * Nat.pow 4 (@dim F (Geo2 F)) + length massF_sched) = 34) by (cbn; lra). rewrite C. apply Rle_trans with (bpow radix2 10); [cbn; lra|apply bpow_le; lia].
    - symmetry. apply Permutation_rev.
    - cbn. apply perm_swap.
    - apply Permutation_refl.
  Qed.
  (** The whole step, without stress, in the corner of C93. *)
  Example C91_plates_whole_ex : exists am nodes nodes' P1 P2 f1 f2, remeshFixedInit 20 backF_p 2 gridF_xs = Ok am /\
    p2g backF_p (map fst am) velF_P massF_sched (resizeGrid (map fst am)) = Ok nodes /\ euler backF_p [cornerF pbottom; cornerF pleft] backF_dt (gravity0 backF_p) (map fst am) (rev (seq 0 (length (resizeGrid (map fst am))))) nodes = Ok nodes' /\
    g2p still backF_p (map fst am) nodes' backF_dt [1; 0]%nat velF_P = Ok (P1, f1) /\ positionUpdate backF_p backF_dt [0; 1]%nat P1 = Ok (P2, f2) /\
    read_back_okF 8 (speed_after 4 (bpow radix2 (-90)) 10 backF_p backF_dt) backF_p backF_dt velF_P P1 P2.
  Proof.
    assert (K : exists r, (am <- remeshFixedInit 20 backF_p 2 gridF_xs ;; nodes <- p2g backF_p (map fst am) velF_P massF_sched (resizeGrid (map fst am)) ;; nodes' <- euler backF_p [cornerF pbottom; cornerF pleft] backF_dt (gravity0 backF_p) (map fst am) (rev (seq 0 (length (resizeGrid (map fst am))))) nodes ;; r1 <- g2p still backF_p (map fst am) nodes' backF_dt [1; 0]%nat velF_P ;; r2 <- positionUpdate backF_p backF_dt [0; 1]%nat (fst r1) ;; Ok (am, nodes, nodes', r1, r2)) = Ok r /\ ((prodlen (map fst (fst (fst (fst (fst r))))) <=? 4294967295)%Z) = true) by (apply ok_intro; vm_compute; reflexivity).
    destruct K as (((((am & nodes) & nodes') & r1) & r2) & E & K). cbn [fst snd] in K. apply Z.leb_le in K.
    apply bind_Ok in E. destruct E as (am0 & Ea & E). apply bind_Ok in E. destruct E as (nodes0 & Eg & E). apply bind_Ok in E. destruct E as (nodes1 & Ee & E). apply bind_Ok in E. destruct E as ((P1 & f1) & E1 & E). apply bind_Ok in E. destruct E as ((P2 & f2) & E2 & E).
    cbn [fst] in E2. apply Ok_inj in E. do 4 (apply pair_equal_spec in E; destruct E as (E & _)). subst am0.
    exists am, nodes0, nodes1, P1, P2, f1, f2. split; [exact Ea|]. split; [exact Eg|]. split; [exact Ee|]. split; [exact E1|]. split; [exact E2|].
    destruct backF_cloud as (Hc & Hv). destruct velF_ok as (_ & HC & Hs & _). destruct forF_ok as (_ & _ & _ & Hf). destruct Hf as [fT fg fh fvol fmass fdt ftau fgr].
    assert (B90 : bpow radix2 (-90) = / 1237940039285380274899124224) by (cbn; lra).
    assert (Hf : forces_okF (bpow radix2 (-90)) 10 backF_p velF_P backF_dt (gravity0 backF_p)).
    { constructor; [split; apply bpow_le; lia|exact fg|exact fh|exact fvol|exact fmass|exact fdt| |exact fgr].
      destruct (fofZ_spec 0 ltac:(lia)) as (F0 & V0). assert (Zr : ffin (fofZ 0) /\ Rabs (fval (fofZ 0)) <= bpow radix2 (-90)) by (split; auto; rewrite V0, Rabs_R0; apply bpow_ge_0).
      intros tau k l [<-|[<-|[]]] Hk Hl; (destruct k as [|[|k]]; try (cbn in Hk; lia); destruct l as [|[|l]]; try (cbn in Hl; lia); exact Zr). }
    assert (Ed : backF_dt = S754_finite false 4611686018427388 (-63)) by (vm_compute; reflexivity).
    assert (Ex : dx backF_p = S754_finite false 7205759403792794 (-56)) by (vm_compute; reflexivity).
    assert (B63 : bpow radix2 (-63) = / 9223372036854775808) by (cbn; lra). assert (B56 : bpow radix2 (-56) = / 72057594037927936) by (cbn; lra).
    destruct (fofZ_spec 1 ltac:(lia)) as (F1 & V1).
    assert (Vd : 0 < fval backF_dt <= 1/1999) by (rewrite Ed, fval_fin, B63; cbn [sfZ]; lra). assert (Vx : 99/1000 <= fval (dx backF_p)) by (rewrite Ex, fval_fin, B56; cbn [sfZ]; lra).
    assert (HU : 0 <= speed_after 4 (bpow radix2 (-90)) 10 backF_p backF_dt <= 145).
    { unfold speed_after. change (particle_volume backF_p) with (fofZ 1). change (particle_mass backF_p) with (fofZ 1). rewrite V1, B90, Rmult_1_l, Rmult_1_r. set (x := fval (dx backF_p)) in *. set (d := fval backF_dt) in *.
      assert (E26 : 10 ^ 26 = 100000000000000000000000000) by (cbn [pow]; lra). rewrite E26.
      assert (Ix : 0 < / x <= 1000/99) by (split; [apply Rinv_0_lt_compat; lra|replace (1000/99) with (/ (99/1000)) by lra; apply Rinv_le_contravar; lra]).
      assert (Dx : 0 <= d * / x <= 1/1999 * (1000/99)) by (split; [apply Rmult_le_pos; lra|apply Rmult_le_compat; lra]). unfold Rdiv in Dx |- *.
      replace (d * / 1237940039285380274899124224 * / x) with (d * / x * / 1237940039285380274899124224) by ring. lra. }
    assert (Z0 : ffin (fofZ 0) /\ fval (fofZ 0) = 0) by (apply (fofZ_spec 0); lia).
    assert (Fr : fric_okF (G := Geo2 F) (fofQ 1 2)).
    { assert (E : fofQ 1 2 = S754_finite false 4503599627370496 (-53)) by (vm_compute; reflexivity). rewrite E. split; [split; reflexivity|]. rewrite fval_fin. replace (bpow radix2 (-53)) with (/ 9007199254740992) by (cbn; lra). cbn [sfZ]. split; [|intros C; discriminate]. split; [lra|]. apply Rle_trans with (bpow radix2 0); [cbn; lra|apply bpow_le; lia]. }
    assert (Hpl : forall pl, In pl [cornerF pbottom; cornerF pleft] -> plate_restF (G := Geo2 F) pl /\ fric_okF (G := Geo2 F) (pl_fric pl)).
    { intros pl [<-|[<-|[]]]; (split; [intros k Hk; destruct k as [|[|k]]; exact Z0|exact Fr]). }
    refine (C91_plates_whole_step_partial ExSimF.libm0 (Geo2 F) (or_introl eq_refl) still 20 8 4 (bpow radix2 (-90)) 10 backF_p [cornerF pbottom; cornerF pleft] velF_P P1 P2 2 am nodes0 nodes1 backF_dt (gravity0 backF_p) massF_sched (rev (seq 0 (length (resizeGrid (map fst am))))) [1; 0]%nat [0; 1]%nat f1 f2 Hc HC eq_refl eq_refl eq_refl Hpl eq_refl eq_refl Hv Hf _ _ Ea K _ _ _ _ _ Eg Ee E1 E2).
    - apply Rle_trans with (bpow radix2 8); [change (bpow radix2 8) with 256; lra|apply bpow_le; lia].
    - split; [rewrite Ed; split; reflexivity|]. split; [lra|]. apply Rle_trans with (1/1999 * 145); [apply Rmult_le_compat; lra|lra].
    - unfold thread_schedule, massF_sched. cbn. apply perm_swap.
    - assert (C : INR (2 * Nat.pow 4 (@dim F (Geo2 F)) + length massF_sched) = 34) by (cbn; lra). rewrite C. apply Rle_trans with (bpow radix2 10); [cbn; lra|apply bpow_le; lia].
    - symmetry. apply Permutation_rev.
    - cbn. apply perm_swap.
    - apply Permutation_refl.
  Qed.
End Ex.

Print Assumptions C91_first_grid.
Print Assumptions C91_resting_plates_partial.
Print Assumptions C91_later_grids_partial.
Print Assumptions C91_periodic_partial.
Print Assumptions C91_whole_step_partial.
Print Assumptions C91_plates_later_partial.
Print Assumptions C91_plates_periodic_partial.
Print Assumptions C91_plates_whole_step_partial.
