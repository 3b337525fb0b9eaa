(** * Properties C01 (kernels), C59, C60 and C61: the equations of one time step. *)
From Coq Require Import Reals ZArith Lra Lia List Bool Permutation.
From Verif Require Import Num NumR Tools Lin Types Remesh Objects Transfer Rma Plastic Pbc Step Spec SpecStep SpecMech SpecObj SpecPlastic SpecMaterial
  SpecMpm LinProofs ResProofs KernelProofs GridProofs StencilProofs GradProofs RemeshProofs PloopProofs StepProofs StepMech StepField
  SpecTime TimeProofs PlateProofs ObjectProofs ExStep ExMech MpmProofs PropTime PropBoundary.
Import ListNotations.
Local Open Scope R_scope.

(** ** C01 *)
(** The interpolation kernel is the centred cardinal B-spline of the configured degree. *)
Theorem C01_kernel_is_bspline : forall s (u : R), N s u = bspline (degree s) u.
Proof. exact kernel_bspline. Qed.
Print Assumptions C01_kernel_is_bspline.
Example C01_kernel_values : bspline 2 0 = 3/4 /\ bspline 3 1 = 1/6 /\ bspline 1 (1/4) = 3/4.
Proof.
  change (bspline 2 0) with (bspline (degree Deg2) 0). change (bspline 3 1) with (bspline (degree Deg3) 1). change (bspline 1 (1/4)) with (bspline (degree Deg1) (1/4)).
  rewrite <- !kernel_bspline. repeat split; cbn [N]; unfold N1, N2, N3; cbv zeta; rewrite ?nofZ_R; numR; cbn [nabs NumR].
  - rewrite Rabs_R0. destruct (Rltb_spec 0 (1/2)); lra.
  - rewrite Rabs_R1. destruct (Rltb_spec 1 1); [lra|]. destruct (Rltb_spec 1 2); lra.
  - rewrite cmax_R, Rabs_pos_eq by lra. rewrite Rmax_right; lra.
Qed.

(** ** C59 *)
(** The grid after a step: mass average of the particles, Newton's law, contact. *)
Theorem C59_grid_update : forall (G : Geo R), two_or_three G -> forall svd uabs af p sc s0 s1 n,
  0 < dx p -> 0 < particle_mass p -> use_pbc p = false -> use_musl p = false -> valid_sched sc -> well_formed s0 n ->
  advanceStep svd uabs af p sc s0 = Ok s1 -> GridOk p (s_axes s1) -> regular_cloud p (s_axes s1) (p_x (s_p s0)) ->
  Forall2 (node_law p (s_plates s0) (s_dt s1) (s_grav s1) (particles (s_p s0))) (positions (s_axes s1)) (s_nodes s1).
Proof.
  intros G HG svd uabs af p sc s0 s1 n Hdx Hm Hp Hmu V W E GO RC. pose proof (geolaws G HG) as GL.
  destruct (step_laws svd uabs af p sc s0 s1 n Hdx Hm Hp V W E GO RC) as (grid & A & B & _). rewrite Hmu in B. now rewrite B.
Qed.
Print Assumptions C59_grid_update.
(** With MUSL the grid is the projection of the new particle velocities onto the same nodes. *)
Theorem C59_musl_grid_update : forall (G : Geo R), two_or_three G -> forall svd uabs af p sc s0 s1 n,
  0 < dx p -> 0 < particle_mass p -> use_pbc p = false -> use_musl p = true -> valid_sched sc -> well_formed s0 n ->
  advanceStep svd uabs af p sc s0 = Ok s1 -> GridOk p (s_axes s1) -> regular_cloud p (s_axes s1) (p_x (s_p s0)) ->
  exists grid, Forall2 (node_law p (s_plates s0) (s_dt s1) (s_grav s1) (particles (s_p s0))) (positions (s_axes s1)) grid /\
    Forall2 (musl_law p (combine (particles (s_p s0)) (particles (s_p s1)))) (combine (positions (s_axes s1)) grid) (s_nodes s1).
Proof.
  intros G HG svd uabs af p sc s0 s1 n Hdx Hm Hp Hmu V W E GO RC. pose proof (geolaws G HG) as GL.
  destruct (step_laws svd uabs af p sc s0 s1 n Hdx Hm Hp V W E GO RC) as (grid & A & B & _). rewrite Hmu in B. eauto.
Qed.
Print Assumptions C59_musl_grid_update.

(** ** C60 *)
(** Every particle after a step; [grid] are the nodes after the grid update, the nodes at the end
    of the step strain the material (the same nodes unless MUSL is on). *)
Theorem C60_particle_update : forall (G : Geo R), two_or_three G -> forall svd uabs af p sc s0 s1 n,
  0 < dx p -> 0 < particle_mass p -> use_pbc p = false -> valid_sched sc -> well_formed s0 n ->
  advanceStep svd uabs af p sc s0 = Ok s1 -> GridOk p (s_axes s1) -> regular_cloud p (s_axes s1) (p_x (s_p s0)) ->
  let l := particles (s_p s0) in let l1 := particles (s_p s1) in let pos := positions (s_axes s1) in
  exists grid, Forall2 (node_law p (s_plates s0) (s_dt s1) (s_grav s1) l) pos grid /\
    (if use_musl p then Forall2 (musl_law p (combine l l1)) (combine pos grid) (s_nodes s1) else s_nodes s1 = grid) /\
    Forall2 (particle_law svd uabs p (s_dt s1) l (combine pos grid) (combine pos (s_nodes s1))) l l1.
Proof. intros G HG. pose proof (geolaws G HG) as GL. exact step_laws. Qed.
Print Assumptions C60_particle_update.

(** ** Two moving, stressed particles under gravity beside a moving plate *)
Definition wall (u : @TV R (Geo2 R)) : @Plate R (Geo2 R) := mkPlate (G := Geo2 R) (-1) pleft NoSlip 0 (-10) 10 u u 1 0.
Example C59_C60_ex : forall svd uabs (musl : bool), exists af s1, let p := ex_p (-1/2) musl 1000 (e2 0 (-10)) false in
  let s0 := initial_state p (two_particles (e2 1 2) (e2 (-3) 4) mident mident (mkM2 5 1 1 7) (mkM2 (-2) 0 0 3)) [wall (e2 1 0)] in
  0 < dx p /\ 0 < particle_mass p /\ use_pbc p = false /\ use_musl p = musl /\ valid_sched rev_sched /\ well_formed s0 2 /\
  advanceStep svd uabs af p rev_sched s0 = Ok s1 /\ GridOk p (s_axes s1) /\ regular_cloud p (s_axes s1) (p_x (s_p s0)) /\
  length (particles (s_p s0)) = 2%nat.
Proof.
  intros. destruct (ex_mech_with svd uabs rev_sched (-1/2) musl (e2 0 (-10)) (e2 1 2) (e2 (-3) 4) mident mident (mkM2 5 1 1 7) (mkM2 (-2) 0 0 3) [wall (e2 1 0)] rev_valid) as (af & s1 & E & GO & RC & _).
  exists af, s1. cbv zeta. split; [apply ex_dx|]. split; [apply ex_mass|]. do 2 (split; [reflexivity|]). split; [exact rev_valid|]. split; [apply ex_wf|].
  split; [exact E|]. split; [exact GO|]. split; [exact RC|reflexivity].
Qed.

(** ** C61 *)
(** At the end of a step every node satisfies the contact condition of the obstacle it met. *)
Definition C61_statement (musl : bool) : Prop := forall (G : Geo R), two_or_three G -> forall svd uabs af p sc s0 s1 n,
  0 < dx p -> 0 < particle_mass p -> use_pbc p = false -> use_musl p = musl -> valid_sched sc -> well_formed s0 n ->
  advanceStep svd uabs af p sc s0 = Ok s1 -> GridOk p (s_axes s1) -> regular_cloud p (s_axes s1) (p_x (s_p s0)) ->
  Forall2 (contact_held p (s_plates s0) (s_dt s1) (s_grav s1) (particles (s_p s0))) (positions (s_axes s1)) (s_nodes s1).
Lemma F2_imp : forall X Y (P Q : X -> Y -> Prop) l l', (forall x y, P x y -> Q x y) -> Forall2 P l l' -> Forall2 Q l l'.
Proof. intros X Y P Q l l' H F. induction F; constructor; auto. Qed.
Lemma held : forall (G : Geo R), two_or_three G -> forall p plates dt grav l X nd, node_law p plates dt grav l X nd -> contact_held p plates dt grav l X nd.
Proof.
  intros G HG p plates dt grav l X nd [_ _ NL] Hm free U. pose proof (geolaws G HG) as GL. destruct (NL Hm) as (free' & mu & U' & _ & B).
  assert (free' = free).
  { apply vext. intros k Hk. specialize (U k Hk). specialize (U' k Hk). apply Rmult_eq_reg_l with (nd_m nd); [|lra]. lra. }
  subst free'. split.
  - intros be pl af -> I O. eapply (C22_last_plate_wins G HG); eauto.
  - intros be o af n' EO I Oo Op Hn Hu. eapply (C22_last_object_wins G HG); eauto.
Qed.
Theorem C61_contact_without_musl : C61_statement false.
Proof.
  intros G HG svd uabs af p sc s0 s1 n Hdx Hm Hp Hmu V W E GO RC. eapply F2_imp; [|eapply C59_grid_update; eauto].
  intros X nd. now apply held.
Qed.
Print Assumptions C61_contact_without_musl.

(** The example for the refutation: two particles moving right, away from a resting no-slip wall at x = -1, plain PIC and MUSL. *)
Lemma N2_values : N2 0 = 3/4 /\ N2 (1/2) = 1/2 /\ N2 (-1/2) = 1/2 /\ N2 1 = 1/8 /\ (forall u : R, 0 <= N2 u).
Proof.
  assert (P : forall u : R, 0 <= N2 u).
  { intros u. unfold N2. cbv zeta. rewrite ?nofZ_R. numR. cbn [nabs NumR]. pose proof (Rabs_pos u) as Hp. destruct (Rltb_spec (Rabs u) (1/2)); [nra|]. destruct (Rltb_spec (Rabs u) (3/2)); nra. }
  repeat split; auto; unfold N2; cbv zeta; rewrite ?nofZ_R; numR; cbn [nabs NumR]; [rewrite Rabs_R0|rewrite Rabs_pos_eq by lra|rewrite Rabs_left by lra|rewrite Rabs_R1];
  match goal with |- context [Rltb ?a (1/2)] => destruct (Rltb_spec a (1/2)); destruct (Rltb_spec a (3/2)) end; lra.
Qed.
Lemma in_positions : forall (p : @Par R (Geo2 R)) axes x y, length axes = 2%nat ->
  (forall a, nth_error axes 0 = Some a -> In x (ax_co a)) -> (forall a, nth_error axes 1 = Some a -> In y (ax_co a)) -> In (e2 x y) (positions axes).
Proof.
  intros p axes x y L Hx Hy. destruct axes as [|a [|b [|]]]; try discriminate. specialize (Hx a eq_refl). specialize (Hy b eq_refl).
  unfold positions. apply in_map_iff. exists [x; y]. split; [reflexivity|]. cbn [lattice_points]. apply in_flat_map. exists x. split; auto.
  apply in_map. apply in_flat_map. exists y. split; auto. now left.
Qed.
Lemma F2_in : forall X Y (Q : X -> Y -> Prop) l l' x, Forall2 Q l l' -> In x l -> exists y, In (x, y) (combine l l') /\ Q x y.
Proof.
  intros X Y Q l l' x F. induction F; intros Hi; [destruct Hi|]. destruct Hi as [->|Hi]; [exists y; split; [now left|auto]|].
  destruct (IHF Hi) as (y' & A & B). exists y'. split; [now right|auto].
Qed.
Lemma F2_in_r : forall X Y (Q : X -> Y -> Prop) l l' x, Forall2 Q l l' -> In x (combine l l') -> Q (fst x) (snd x).
Proof. intros X Y Q l l' x F. induction F; intros Hi; [destruct Hi|]. destruct Hi as [<-|Hi]; auto. Qed.
Lemma Rsum_ge : forall X (f : X -> R) l x, (forall y, In y l -> 0 <= f y) -> In x l -> f x <= Rsum f l.
Proof.
  intros X f l x. induction l as [|y l IH]; intros P Hi; [destruct Hi|]. cbn [Rsum].
  assert (0 <= Rsum f l). { clear -P. induction l; cbn [Rsum]; [lra|]. assert (0 <= f a) by (apply P; right; now left). assert (0 <= Rsum f l) by (apply IHl; intros; apply P; destruct H0; [left|right; right]; auto). lra. }
  destruct Hi as [->|Hi]; [lra|]. assert (f x <= Rsum f l) by (apply IH; auto; intros; apply P; now right). assert (0 <= f y) by (apply P; now left). lra.
Qed.
Lemma F2_length : forall X Y (Q : X -> Y -> Prop) l l', Forall2 Q l l' -> length l = length l'.
Proof. intros X Y Q l l' F. induction F; cbn; auto. Qed.
Definition q0 (x : @TV R (Geo2 R)) : @P1 R (Geo2 R) := mkP1 x (e2 1 0) vzero vzero (mkHist 0 0 0 0 0 0) mident mzero mzero.
Theorem C61_musl_refuted : ~ C61_statement true.
Proof.
  intros S. pose (svd := fun F : @TM R (Geo2 R) => (F, @vzero R _ (Geo2 R), F)). pose (p := ex_p 0 true 1000 (@vzero R _ (Geo2 R)) false). pose (pl := wall vzero).
  destruct (ex_mech_with svd (fun x => x) rev_sched 0 true vzero (e2 1 0) (e2 1 0) mzero mzero mzero mzero [pl] rev_valid) as (af & s1 & E & GO & RC & Gr & IG & Ax).
  fold p in E, GO, RC, IG. set (s0 := initial_state p _ _) in *.
  assert (HG : two_or_three (Geo2 R)) by (now left).
  pose proof (S _ HG svd (fun x => x) af p rev_sched s0 s1 2%nat ltac:(cbn; lra) ltac:(cbn; lra) eq_refl eq_refl rev_valid (ex_wf _ _ _ _ _ _ _ _) E GO RC) as C.
  destruct (C60_particle_update _ HG svd (fun x => x) af p rev_sched s0 s1 2%nat ltac:(cbn; lra) ltac:(cbn; lra) eq_refl rev_valid (ex_wf _ _ _ _ _ _ _ _) E GO RC) as (grid & NL & ML & PL).
  destruct (C25_time_step_limits _ HG svd (fun x => x) af p rev_sched s0 s1 ltac:(cbn; lra) E) as (D1 & _ & D2 & _).
  cbv zeta in *. change (use_musl p) with true in ML. cbv iota in ML. change (s_plates s0) with [pl] in *. rewrite Gr in *.
  assert (Dt : 0 < s_dt s1 <= 1/1000).
  { change (s_time s0) with (0/1) in D2. change (s_frame s0 + 1)%Z with 1%Z in D2. change (fps p) with 1000 in D2. change (min_dt p) with (1/100000000000000) in D1, D2. revert D2. unfold Rmax. destruct (Rle_dec _ _); lra. }
  clear D1 D2. set (dt := s_dt s1) in *. set (pos := positions (s_axes s1)) in *.
  assert (El : particles (s_p s0) = [q0 (e2 (1/2) (1/4)); q0 (e2 (-1/2) (3/4))]) by reflexivity. rewrite El in *. set (l := [_; _]) in *.
  (* the two nodes *)
  assert (La : length (s_axes s1) = 2%nat) by exact (go_dim _ _ GO).
  assert (In0 : forall i, (i < 4)%nat -> forall k a, nth_error (s_axes s1) k = Some a -> In (ax_c a + INR i * 1) (ax_co a)).
  { intros i Hi k a Ha. pose proof (proj1 (Forall_forall _ _) (go_lat _ _ GO) a (nth_error_In _ _ Ha)) as (n & _ & Ec). change (dx p) with 1 in Ec.
    assert (A : vget (e2 (-1/2) (3/4)) k < ax_c a + (INR (length (ax_co a)) - 2) * 1) by (apply (IG (e2 (-1/2) (3/4)) ltac:(right; now left) k a Ha)).
    destruct (Ax k a Ha) as (Hk & Hc). rewrite Hc, Ec, map_length, seq_length in A.
    assert (3 < INR n) by (destruct k as [|[|]]; [| |lia]; cbn in A; lra).
    assert (3 < n)%nat by (apply INR_lt; cbn; lra).
    rewrite Ec. apply in_map_iff. exists i. split; auto. apply in_seq. lia. }
  assert (InP : forall i, (i < 4)%nat -> In (e2 (-5/2 + INR i * 1) (-7/4 + INR 2 * 1)) pos).
  { intros i Hi. apply (in_positions p); auto; intros a Ha; destruct (Ax _ _ Ha) as (_ & <-); eapply In0; eauto; lia. }
  pose proof (InP 1%nat ltac:(lia)) as PD. pose proof (InP 2%nat ltac:(lia)) as PA. clear InP In0.
  replace (e2 _ _) with (e2 (-3/2) (1/4)) in PD by (unfold e2; f_equal; cbn; lra). replace (e2 _ _) with (e2 (-1/2) (1/4)) in PA by (unfold e2; f_equal; cbn; lra).
  destruct N2_values as (V0 & Vh & Vm & V1 & Vp).
  assert (Wp : forall X x, 0 <= weight p X x).
  { intros X x. unfold weight. cbn [seq dim Geo2 map fold_right]. change (spline p) with Deg2. cbn [N]. pose proof (Vp ((vget x 0 - vget X 0) / dx p)). pose proof (Vp ((vget x 1 - vget X 1) / dx p)). nra. }
  assert (W2 : forall X x, weight p X x = N2 (vget x 0 - vget X 0) * N2 (vget x 1 - vget X 1)).
  { intros X x. unfold weight. cbn [seq dim Geo2 map fold_right]. change (spline p) with Deg2. change (dx p) with 1. cbn [N]. unfold Rdiv. rewrite Rinv_1, !Rmult_1_r. reflexivity. }
  assert (WA1 : 0 < weight p (e2 (-1/2) (1/4)) (e2 (1/2) (1/4))).
  { rewrite W2. cbn [vget Geo2 e2 v2_0 v2_1]. replace (1/2 - -1/2) with 1 by lra. replace (1/4 - 1/4) with 0 by lra. rewrite V0, V1. lra. }
  assert (WA2 : 0 < weight p (e2 (-1/2) (1/4)) (e2 (-1/2) (3/4))).
  { rewrite W2. cbn [vget Geo2 e2 v2_0 v2_1]. replace (-1/2 - -1/2) with 0 by lra. replace (3/4 - 1/4) with (1/2) by lra. rewrite V0, Vh. lra. }
  assert (WD : 0 < weight p (e2 (-3/2) (1/4)) (e2 (-1/2) (3/4))).
  { rewrite W2. cbn [vget Geo2 e2 v2_0 v2_1]. replace (-1/2 - -3/2) with 1 by lra. replace (3/4 - 1/4) with (1/2) by lra. rewrite V1, Vh. lra. }
  (* the free velocity of every node with mass is (1,0) *)
  assert (Fl : ~ flip_ratio p < 0) by (cbn; lra).
  assert (Un : forall X m free, 0 < m -> m = particle_mass p * Rsum (fun q => weight p X (q_x q)) l -> uncorrected p dt vzero l X m free <-> free = e2 1 0).
  { intros X m free Hm Em. change (particle_mass p) with 1 in Em.
    assert (Pj : forall k, (k < 2)%nat -> projected p l X k = vget (e2 1 0) k).
    { intros k Hk. unfold projected, carried. destruct (Rlt_dec (flip_ratio p) 0); [contradiction|]. cbn [l Rsum q_x q_v q0] in Em |- *. field. cbn [l Rsum q_x q0] in Em. lra. }
    assert (It : forall k, (k < 2)%nat -> internal p l X k = 0).
    { intros k Hk. unfold internal, sum_axes. cbn [l Rsum q_tau q0 q_x seq dim Geo2]. destruct k as [|[|]]; [| |lia]; cbn; field. }
    split; intros H.
    - apply (vext (GeoLaws := GL2)). intros k Hk. specialize (H k Hk). rewrite Pj, It in H by exact Hk. assert (Z : vget (@vzero R _ (Geo2 R)) k = 0) by (destruct k as [|[|]]; [| |cbn in Hk; lia]; cbn; lra). rewrite Z in H.
      apply Rmult_eq_reg_l with m; lra.
    - subst free. intros k Hk. rewrite Pj, It by exact Hk. assert (Z : vget (@vzero R _ (Geo2 R)) k = 0) by (destruct k as [|[|]]; [| |cbn in Hk; lia]; cbn; lra). rewrite Z. lra. }
  assert (Vx : forall Xn, In Xn (combine pos grid) -> 0 <= vget (nd_v (snd Xn)) 0 /\ (0 < nd_m (snd Xn) -> -1 <= vget (fst Xn) 0 -> vget (nd_v (snd Xn)) 0 = 1)).
  { intros Xn Hi. destruct (F2_in_r _ _ _ _ _ _ NL Hi) as [M Em Nw]. set (X := fst Xn) in *. set (nd := snd Xn) in *.
    assert (0 <= nd_m nd). { rewrite M. change (particle_mass p) with 1. cbn [l Rsum q_x q0]. pose proof (Wp X (e2 (1/2) (1/4))). pose proof (Wp X (e2 (-1/2) (3/4))). lra. }
    destruct (Req_dec (nd_m nd) 0) as [Z|Z]. { rewrite (Em Z). split; [cbn; lra|lra]. }
    destruct (Nw ltac:(lra)) as (free & mu & U & _ & B). apply (Un X (nd_m nd) free ltac:(lra) M) in U. subst free.
    assert (D : in_plate pl (predicted dt X (e2 1 0)) \/ ~ in_plate pl (predicted dt X (e2 1 0))) by (unfold in_plate; cbn [pl wall pl_type pl_pos pl_lower pl_upper]; lra).
    destruct D as [I|O].
    - rewrite (C17_no_slip_plate _ HG p [] pl [] dt mu X (e2 1 0) (nd_v nd) eq_refl I (Forall_nil _) B).
      split; [cbn; lra|]. intros _ Hx. exfalso. destruct I as (I & _). cbn [pl wall pl_pos predicted vadd lscale] in I. revert I. cbn. numR. intros I. change (v2_0 X) with (vget X 0) in I. lra.
    - rewrite (C22_outside_untouched _ HG p [pl] dt mu X (e2 1 0) (Forall_nil _) (Forall_cons pl (P := outside_plate _) O (Forall_nil _))) in B. assert (Bv : nd_v nd = e2 1 0) by congruence; rewrite Bv. cbn. split; [lra|auto]. }
  (* the particles move right *)
  destruct (F2_in _ _ _ _ _ _ NL PA) as (nA & InA & NA).
  assert (mA : 0 < nd_m nA). { rewrite (nl_mass _ _ _ _ _ _ _ NA). change (particle_mass p) with 1. cbn [l Rsum q_x q0]. lra. }
  assert (vA : vget (nd_v nA) 0 = 1) by (apply (Vx _ InA); [exact mA|cbn; lra]).
  assert (Pv : forall qq, In qq (combine l (particles (s_p s1))) -> 0 < vget (q_v (snd qq)) 0).
  { intros qq Hq. pose proof (F2_in_r _ _ _ _ _ _ PL Hq) as K. rewrite (pl_velocity _ _ _ _ _ _ _ _ _ K 0%nat ltac:(cbn; lia)).
    unfold blend. destruct (Rlt_dec (flip_ratio p) (-1)); [cbn in *; lra|]. destruct (Rlt_dec (flip_ratio p) 0); [contradiction|]. change (flip_ratio p) with 0.
    set (i1 := interpolated _ _ _ _). set (i2 := interpolated _ _ _ _). replace (0 * (vget (q_v (fst qq)) 0 + i1) + (1 - 0) * i2) with i2 by ring. unfold i2, interpolated.
    apply Rlt_le_trans with (weight p (e2 (-1/2) (1/4)) (q_x (fst qq)) * vget (nd_v nA) 0).
    - rewrite vA, Rmult_1_r. apply in_combine_l with (l' := particles (s_p s1)) in Hq || (destruct qq as (a, b); apply in_combine_l in Hq; cbn [fst]). destruct Hq as [<-|[<-|[]]]; auto.
    - apply (Rsum_ge _ (fun Xn => weight p (fst Xn) (q_x (fst qq)) * vget (nd_v (snd Xn)) 0) _ (e2 (-1/2) (1/4), nA)); auto.
      intros Xn Hi. apply Rmult_le_pos; [apply Wp|apply (Vx _ Hi)]. }
  (* the node inside the wall *)
  destruct (F2_in _ _ _ _ _ _ NL PD) as (nD & InD & ND). pose proof (nl_mass _ _ _ _ _ _ _ ND) as MD.
  assert (mD : 0 < nd_m nD). { rewrite MD. change (particle_mass p) with 1. cbn [l Rsum q_x q0]. pose proof (Wp (e2 (-3/2) (1/4)) (e2 (1/2) (1/4))). lra. }
  destruct (F2_in _ _ _ _ _ _ ML InD) as (nE & InE & [ME _ VE]). cbn [fst snd] in ME, VE.
  assert (CE : contact_held p [pl] dt vzero l (e2 (-3/2) (1/4)) nE).
  { assert (K : forall Xn nd, In (Xn, nd) (combine (combine pos grid) (s_nodes s1)) -> In (fst Xn, nd) (combine pos (s_nodes s1))).
    { assert (Lg : length pos = length grid) by (exact (F2_length _ _ _ _ _ NL)). clear -Lg. revert grid Lg. generalize (s_nodes s1) as ns. induction pos as [|x q IH]; intros ns [|g gr] L Xn nd Hi; try discriminate; [destruct Hi|].
      destruct ns as [|n ns]; [destruct Hi|]. destruct Hi as [[= <- <-]|Hi]; [now left|]. right. cbn in L. eapply IH; eauto. }
    exact (F2_in_r _ _ _ _ _ _ C (K _ _ InE)). }
  assert (mE : 0 < nd_m nE) by (rewrite ME; exact mD).
  destruct (CE mE (e2 1 0)) as (CP & _). { apply Un; auto. rewrite ME. exact MD. }
  specialize (CP [] pl [] eq_refl). cbn [pl wall pl_bc contact pl_v] in CP.
  assert (I : in_plate pl (predicted dt (e2 (-3/2) (1/4)) (e2 1 0))).
  { unfold in_plate, predicted. cbn. numR. lra. }
  specialize (CP I (Forall_nil _)). specialize (VE mE 0%nat ltac:(cbn; lia)). rewrite CP in VE.
  change (particle_mass p) with 1 in VE. cbn [fst] in VE.
  assert (Pos : 0 < Rsum (fun qq => weight p (e2 (-3/2) (1/4)) (q_x (fst qq)) * carried p (q_v (snd qq)) (q_B (snd qq)) (q_x (fst qq)) (e2 (-3/2) (1/4)) 0) (combine l (particles (s_p s1)))).
  { assert (Cr : forall v B x X, carried p v B x X 0 = vget v 0) by (intros; unfold carried; destruct (Rlt_dec (flip_ratio p) 0); [contradiction|ring]).
    pose proof (F2_length _ _ _ _ _ PL) as LL. cbn in LL. destruct (particles (s_p s1)) as [|a [|b [|]]] eqn:Ep; try discriminate.
    cbn [l combine Rsum fst snd q_x q0]. rewrite !Cr. pose proof (Pv (q0 (e2 (1/2) (1/4)), a) ltac:(left; reflexivity)) as Pa. pose proof (Pv (q0 (e2 (-1/2) (3/4)), b) ltac:(right; left; reflexivity)) as Pb. cbn [snd] in Pa, Pb.
    pose proof (Wp (e2 (-3/2) (1/4)) (e2 (1/2) (1/4))). nra. }
  assert (Z : vget (@vzero R _ (Geo2 R)) 0 = 0) by (cbn; lra). rewrite Z in VE. lra.
Qed.
Print Assumptions C61_musl_refuted.
