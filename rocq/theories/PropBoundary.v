(** * Properties C17-C24: boundaries. *)
From Coq Require Import Reals ZArith Lra Lia List Bool.
From Verif Require Import Num NumR Tools Lin Types Objects Transfer Step SpecObj SpecStep Spec LinProofs ResProofs ObjectProofs NormalProofs PlateProofs
  Examples RemeshExamples.
Import ListNotations.
Local Open Scope R_scope.

(** Example objects: the ground y <= 0 with each boundary condition, friction 1/2, and a plate. *)
Definition ex_ground (bc : BC) : Obj R := mkObj (G := Geo2 R) (Ground 0) bc (1/2).
Definition ep_obj (l : list (Obj R)) : @Par R (Geo2 R) := ex_par (G := Geo2 R) Deg2 1 (-1) NoPlasticity ExpoImpl false false false l.
Definition ex_plate (bc : BC) : @Plate R (Geo2 R) := mkPlate (G := Geo2 R) 0 pbottom bc (1/2) (-10) 10 (pt 1 0) (pt 1 0) 1 0.
Lemma ex_ground_inside : forall bc v, -5 <= v2_1 v -> v2_1 v <= -1 -> inside (ob_shape (ex_ground bc)) (predicted 1 (pt 0 1) v) = Ok true.
Proof. intros bc [a b] H H'. cbn in H, H'. cbn. numR. f_equal. rewrite negb_true_iff, Rltb_false. lra. Qed.
Lemma ex_plate_inside : forall bc, plate_inside (ex_plate bc) (predicted 1 (pt 0 1) (pt 2 (-3))) = true.
Proof. intros. cbn. numR. rewrite !andb_true_iff, !Rltb_true, Rleb_true. lra. Qed.
Lemma ex_plate_in : forall bc, in_plate (ex_plate bc) (predicted 1 (pt 0 1) (pt 2 (-3))).
Proof. intros. apply plate_inside_spec, ex_plate_inside. Qed.
Lemma ex_normal : forall bc X, normal (ob_shape (ex_ground bc)) X = Ok (pt 0 1).
Proof. intros. cbn. rewrite ?nofZ_R. numR. unfold pt. do 2 f_equal; lra. Qed.
Lemma ex_unit : vdot (pt 0 1) (pt 0 1) = 1.
Proof. cbn. numR. lra. Qed.

(** ** C17 *)
Theorem C17_no_slip_terrain : forall (G : Geo R), two_or_three G ->
  forall p plates before o after dt nfr Xi vi v',
  objects p = before ++ o :: after -> ob_bc o = NoSlip -> inside (ob_shape o) (predicted dt Xi vi) = Ok true ->
  Forall (outside_obj (predicted dt Xi vi)) after -> Forall (outside_plate (predicted dt Xi vi)) plates ->
  boundaryCollision p plates dt nfr Xi vi = Ok v' -> v' = vzero.
Proof.
  intros G HG p plates l1 o l2 dt nfr Xi vi v' EO NS I F Fp E.
  destruct (bc_last_object p plates l1 o l2 dt nfr Xi vi v' EO I F Fp E) as (v & C). rewrite NS in C. cbn in C. congruence.
Qed.
Print Assumptions C17_no_slip_terrain.
Theorem C17_no_slip_plate : forall (G : Geo R), two_or_three G ->
  forall p before pl after dt nfr Xi vi v',
  pl_bc pl = NoSlip -> in_plate pl (predicted dt Xi vi) -> Forall (outside_plate (predicted dt Xi vi)) after ->
  boundaryCollision p (before ++ pl :: after) dt nfr Xi vi = Ok v' -> v' = pl_v pl.
Proof.
  intros G HG p l1 pl l2 dt nfr Xi vi v' NS I F E. apply plate_inside_spec in I. pose proof (geolaws G HG).
  destruct (bc_last_plate p _ l1 pl l2 dt nfr Xi vi v' eq_refl I F E) as (v & ->).
  unfold plate_collide. rewrite NS. apply vadd_0_l.
Qed.
Print Assumptions C17_no_slip_plate.
Example C17_terrain_applies : boundaryCollision (ep_obj [ex_ground SlipFree; ex_ground NoSlip]) [] 1 0 (pt 0 1) (pt 2 (-3)) = Ok vzero.
Proof.
  destruct (boundaryCollision (ep_obj [ex_ground SlipFree; ex_ground NoSlip]) [] 1 0 (pt 0 1) (pt 2 (-3))) as [v| |] eqn:E.
  - f_equal. refine (C17_no_slip_terrain (Geo2 R) (or_introl eq_refl) (ep_obj [ex_ground SlipFree; ex_ground NoSlip]) [] [ex_ground SlipFree] (ex_ground NoSlip) [] 1 0 (pt 0 1) (pt 2 (-3)) v eq_refl eq_refl _ (Forall_nil _) (Forall_nil _) E).
    apply ex_ground_inside; cbn; lra.
  - exfalso. unfold boundaryCollision, objects_loop in E. cbn [ep_obj ex_par objects foldM] in E.
    change (vadd (pt 0 1) (lscale 1 (pt 2 (-3)))) with (predicted 1 (pt 0 1) (pt 2 (-3))) in E.
    rewrite !ex_ground_inside in E by (cbn; lra). cbn [bind] in E. rewrite !ex_normal in E. cbn [ob_bc ex_ground] in E.
    rewrite collide_slip in E by discriminate. destruct (Rltb _ 0); [|discriminate].
    match type of E with context [slid ?a ?b ?c] => destruct (slid_exists a b c) as (w & Ew) end. rewrite Ew in E. discriminate.
  - exfalso. unfold boundaryCollision, objects_loop in E. cbn [ep_obj ex_par objects foldM] in E.
    change (vadd (pt 0 1) (lscale 1 (pt 2 (-3)))) with (predicted 1 (pt 0 1) (pt 2 (-3))) in E.
    rewrite !ex_ground_inside in E by (cbn; lra). cbn [bind] in E. rewrite !ex_normal in E. cbn [ob_bc ex_ground] in E.
    rewrite collide_slip in E by discriminate. destruct (Rltb _ 0); [|discriminate].
    match type of E with context [slid ?a ?b ?c] => destruct (slid_exists a b c) as (w & Ew) end. rewrite Ew in E. discriminate.
Qed.
Example C17_plate_applies : boundaryCollision (ep_obj []) [ex_plate NoSlip] 1 0 (pt 0 1) (pt 2 (-3)) = Ok (pt 1 0).
Proof.
  destruct (boundaryCollision (ep_obj []) [ex_plate NoSlip] 1 0 (pt 0 1) (pt 2 (-3))) as [v| |] eqn:E; try discriminate.
  f_equal. apply (C17_no_slip_plate (Geo2 R) (or_introl eq_refl) _ [] (ex_plate NoSlip) [] _ _ _ _ _ eq_refl (ex_plate_in NoSlip) (Forall_nil _) E).
Qed.

(** ** C18 *)
Lemma vsub_vadd : forall (G : Geo R), two_or_three G -> forall u v : @TV R G, vsub (vadd u v) v = u.
Proof. intros G HG u v. pose proof (geolaws G HG). vx. lra. Qed.
Lemma single_object : forall (G : Geo R) p o dt nfr Xi vi, objects p = [o] -> inside (ob_shape o) (predicted dt Xi vi) = Ok true ->
  boundaryCollision p [] dt nfr Xi vi = collide (ob_bc o) (if use_mibf p then nfr else ob_fric o) (normal (ob_shape o) (predicted dt Xi vi)) vi.
Proof.
  intros G p o dt nfr Xi vi EO I. unfold boundaryCollision, objects_loop. cbv zeta. fold (predicted dt Xi vi). rewrite EO. cbn [foldM].
  rewrite I. cbn [bind]. destruct (collide _ _ _ _); reflexivity.
Qed.
Lemma single_plate : forall (G : Geo R) p pl dt nfr Xi vi, objects p = [] -> plate_inside pl (predicted dt Xi vi) = true ->
  boundaryCollision p [pl] dt nfr Xi vi = Ok (plate_collide (use_mibf p) nfr pl vi).
Proof.
  intros G p pl dt nfr Xi vi EO I. unfold boundaryCollision, objects_loop, plates_loop. cbv zeta. fold (predicted dt Xi vi). rewrite EO. cbn [foldM bind fold_left].
  now rewrite I.
Qed.
(** Terrain objects rest: their velocity is zero. *)
Theorem C18_terrain : forall (G : Geo R), two_or_three G ->
  forall p o dt nfr Xi vi n, objects p = [o] -> inside (ob_shape o) (predicted dt Xi vi) = Ok true ->
  normal (ob_shape o) (predicted dt Xi vi) = Ok n -> vdot n n = 1 ->
  exists v', boundaryCollision p [] dt nfr Xi vi = Ok v' /\ contact (ob_bc o) n vzero v' /\
    (ob_bc o = SlipFree -> 0 <= vdot vi n -> v' = vi).
Proof.
  intros G HG p o dt nfr Xi vi n EO I En Hn. pose proof (geolaws G HG). rewrite single_object with (o := o) by auto. rewrite En.
  set (f := if use_mibf p then nfr else ob_fric o).
  assert (Ex : exists v', collide (ob_bc o) f (Ok n) vi = Ok v').
  { destruct (ob_bc o) eqn:B; [cbn; eauto| |]; rewrite collide_slip by discriminate; destruct (Rltb _ 0); eauto using slid_exists. }
  destruct Ex as (v' & E). exists v'. split; auto. destruct (collide_contact (ob_bc o) f n vi v' Hn E) as (C & _ & S). auto.
Qed.
Print Assumptions C18_terrain.
Theorem C18_plate : forall (G : Geo R), two_or_three G ->
  forall p pl dt nfr Xi vi, objects p = [] -> in_plate pl (predicted dt Xi vi) ->
  exists v', boundaryCollision p [pl] dt nfr Xi vi = Ok v' /\ contact (pl_bc pl) (plate_normal (pl_type pl)) (pl_v pl) v' /\
    (pl_bc pl = SlipFree -> 0 <= vdot (vsub vi (pl_v pl)) (plate_normal (pl_type pl)) -> v' = vi).
Proof.
  intros G HG p pl dt nfr Xi vi EO I. apply plate_inside_spec in I. rewrite single_plate by auto. eexists; split; [reflexivity|].
  destruct (plate_contact G (use_mibf p) nfr pl vi HG) as (C & _ & S); [eapply plate_inside_valid; eauto|]. auto.
Qed.
Print Assumptions C18_plate.
Example C18_terrain_applies : exists v', boundaryCollision (ep_obj [ex_ground SlipStick]) [] 1 0 (pt 0 1) (pt 2 (-3)) = Ok v' /\ v2_1 v' = 0.
Proof.
  destruct (C18_terrain (Geo2 R) (or_introl eq_refl) (ep_obj [ex_ground SlipStick]) (ex_ground SlipStick) 1 0 (pt 0 1) (pt 2 (-3)) (pt 0 1) eq_refl)
    as (v & E & C & _); [apply ex_ground_inside; cbn; lra|apply ex_normal|apply ex_unit|].
  exists v. split; auto. cbn in C. destruct v as [a b]. cbn in *. numR. lra.
Qed.
Example C18_plate_applies : exists v', boundaryCollision (ep_obj []) [ex_plate SlipFree] 1 0 (pt 0 1) (pt 2 (-3)) = Ok v' /\ 0 <= v2_1 v'.
Proof.
  destruct (C18_plate (Geo2 R) (or_introl eq_refl) (ep_obj []) (ex_plate SlipFree) 1 0 (pt 0 1) (pt 2 (-3)) eq_refl (ex_plate_in SlipFree)) as (v & E & C & _).
  exists v. split; auto. destruct v as [a b]. cbn in *. numR. lra.
Qed.

(** ** C19 *)
Theorem C19_coulomb_terrain : forall (G : Geo R), two_or_three G ->
  forall p o dt nfr Xi vi n, objects p = [o] -> ob_bc o <> NoSlip -> inside (ob_shape o) (predicted dt Xi vi) = Ok true ->
  normal (ob_shape o) (predicted dt Xi vi) = Ok n -> vdot n n = 1 -> vdot vi n < 0 ->
  let mu := if use_mibf p then nfr else ob_fric o in 0 <= mu ->
  exists v', boundaryCollision p [] dt nfr Xi vi = Ok v' /\ coulomb mu n vi v'.
Proof.
  intros G HG p o dt nfr Xi vi n EO NS I En Hn Hd mu Hm. pose proof (geolaws G HG). rewrite single_object with (o := o) by auto. rewrite En.
  rewrite collide_slip by auto. destruct (Rltb_spec (vdot vi n) 0); [|lra]. now apply slid_coulomb.
Qed.
Print Assumptions C19_coulomb_terrain.
Theorem C19_coulomb_plate_2D : forall (p : @Par R (Geo2 R)) pl dt nfr Xi vi,
  objects p = [] -> pl_bc pl <> NoSlip -> in_plate pl (predicted dt Xi vi) ->
  vdot (vsub vi (pl_v pl)) (plate_normal (pl_type pl)) < 0 ->
  let mu := if use_mibf p then nfr else pl_fric pl in 0 <= mu ->
  exists v', boundaryCollision p [pl] dt nfr Xi vi = Ok v' /\
    coulomb mu (plate_normal (pl_type pl)) (vsub vi (pl_v pl)) (vsub v' (pl_v pl)).
Proof.
  intros p pl dt nfr Xi vi EO NS I Hd mu Hm. apply plate_inside_spec in I. rewrite single_plate by auto. eexists; split; [reflexivity|].
  assert (HG : two_or_three (Geo2 R)) by (left; reflexivity). assert (V : plate_valid (pl_type pl)) by (eapply plate_inside_valid; eauto).
  pose proof (fun w => vsub_vadd _ HG w (pl_v pl)) as S.
  unfold plate_collide. rewrite S. fold mu. apply (plate_towards_iff _ _ _ HG V) in Hd.
  destruct (pl_bc pl); [congruence| |rewrite Hd]; apply plate_slide_coulomb2; auto.
Qed.
Print Assumptions C19_coulomb_plate_2D.
Example C19_applies : exists v', boundaryCollision (ep_obj [ex_ground SlipFree]) [] 1 0 (pt 0 1) (pt 2 (-3)) = Ok v' /\
  coulomb (1/2) (pt 0 1) (pt 2 (-3)) v'.
Proof.
  apply (C19_coulomb_terrain (Geo2 R) (or_introl eq_refl) (ep_obj [ex_ground SlipFree]) (ex_ground SlipFree) 1 0 (pt 0 1) (pt 2 (-3)) (pt 0 1) eq_refl);
   [discriminate|apply ex_ground_inside; cbn; lra|apply ex_normal|apply ex_unit|cbn; numR; lra|cbn; lra].
Qed.
Example C19_plate_applies : exists v', boundaryCollision (ep_obj []) [ex_plate SlipFree] 1 0 (pt 0 1) (pt 2 (-3)) = Ok v' /\
  coulomb (1/2) (pt 0 1) (pt 1 (-3)) (vsub v' (pt 1 0)).
Proof.
  destruct (C19_coulomb_plate_2D (ep_obj []) (ex_plate SlipFree) 1 0 (pt 0 1) (pt 2 (-3)) eq_refl ltac:(discriminate) (ex_plate_in SlipFree))
    as (v & E & C); [cbn; numR; lra|cbn; lra|].
  exists v. split; auto. replace (pt 1 (-3)) with (vsub (pt 2 (-3)) (pl_v (ex_plate SlipFree))) by (cbn; numR; unfold pt; f_equal; lra).
  exact C.
Qed.

(** ** C20 *)
Definition C20_statement : Prop := forall (p : @Par R (Geo3 R)) pl dt nfr Xi vi v',
  objects p = [] -> pl_bc pl <> NoSlip -> in_plate pl (predicted dt Xi vi) ->
  vdot (vsub vi (pl_v pl)) (plate_normal (pl_type pl)) < 0 ->
  0 <= (if use_mibf p then nfr else pl_fric pl) ->
  boundaryCollision p [pl] dt nfr Xi vi = Ok v' ->
  coulomb (if use_mibf p then nfr else pl_fric pl) (plate_normal (pl_type pl)) (vsub vi (pl_v pl)) (vsub v' (pl_v pl)).
Definition ep3 : @Par R (Geo3 R) := ex_par (G := Geo3 R) Deg2 1 (-1) NoPlasticity ExpoImpl false false false [].
Definition pt3 (x y z : R) : @TV R (Geo3 R) := mkV3 x y z.
Definition plate3 : @Plate R (Geo3 R) := mkPlate (G := Geo3 R) 0 pleft SlipFree 1 (-10) 10 (pt3 0 0 0) (pt3 0 0 0) 1 0.
Lemma plate3_inside : plate_inside plate3 (predicted 1 (pt3 0 0 0) (pt3 (-1) 3 4)) = true.
Proof. cbn. numR. rewrite !andb_true_iff, !Rltb_true, Rleb_true. lra. Qed.
Lemma plate3_in : in_plate plate3 (predicted 1 (pt3 0 0 0) (pt3 (-1) 3 4)).
Proof. apply plate_inside_spec, plate3_inside. Qed.
Lemma plate3_towards : vdot (vsub (pt3 (-1) 3 4) (pl_v plate3)) (plate_normal (pl_type plate3)) < 0.
Proof. cbn. numR. lra. Qed.
Lemma plate3_fric : 0 <= (if use_mibf ep3 then 0 else pl_fric plate3).
Proof. cbn. lra. Qed.
Lemma fric3_ex : exists q, plate_fric3 1 3 4 (-1) = (12/5, 16/q) /\ 0 <= q /\ q * q = 16 + 12/5 * (12/5).
Proof.
  exists (sqrt (16 + 12/5 * (12/5))). split; [|split; [apply sqrt_pos|apply sqrt_sqrt; lra]].
  unfold plate_fric3. rewrite !nofZ_R. numR. destruct (Reqb_spec 1 0); [lra|].
  assert (Q : sqrt (3 * 3 + 4 * 4) = 5) by (replace (3 * 3 + 4 * 4) with (5 * 5) by lra; apply sqrt_square; lra).
  rewrite Q. replace (1 * Rabs (-1)) with 1 by (rewrite Rabs_left by lra; lra).
  destruct (Rleb_spec 5 1); [lra|]. rewrite !fric3_comp, Q.
  replace ((5 - 1) * 3 / 5) with (12/5) by lra. f_equal. replace ((5 - 1) * 4) with 16 by lra. do 2 f_equal. lra.
Qed.
(** Relative velocity (-1,3,4) at a left plate with friction 1: the law gives tangential velocity
    (2.4,3.2); the code computes (2.4,3.43). *)
Theorem C20_refuted : ~ C20_statement.
Proof.
  intros S. specialize (S ep3 plate3 1 0 (pt3 0 0 0) (pt3 (-1) 3 4)).
  rewrite single_plate in S by (auto using plate3_inside).
  specialize (S _ eq_refl (fun H => ltac:(discriminate H)) plate3_in plate3_towards plate3_fric eq_refl).
  destruct S as ((c & Hc & E) & _). revert E. unfold plate_collide; rewrite (vsub_vadd _ (or_intror eq_refl)).
  assert (T : plate_towards (pl_type plate3) (vsub (pt3 (-1) 3 4) (pl_v plate3)) = true).
  { apply (plate_towards_iff _ _ _ (or_intror eq_refl)); [cbn; auto|apply plate3_towards]. }
  cbn [plate3 pl_bc]. change (pl_type _) with (pl_type plate3). rewrite T.
  assert (W : vsub (pt3 (-1) 3 4) (pl_v plate3) = pt3 (-1) 3 4) by (cbn; numR; unfold pt3; f_equal; lra).
  change (pl_v _) with (pl_v plate3). rewrite W.
  destruct fric3_ex as (q & Eq & Hq & Hqq).
  assert (E : plate_slide (if use_mibf ep3 then 0 else pl_fric plate3) (pl_type plate3) (pt3 (-1) 3 4) = pt3 0 (12/5) (16/q)).
  { unfold plate_slide. cbn [ep3 ex_par use_mibf plate3 pl_fric pl_type plate_axis plate_tan dim Geo3].
    change (vget (pt3 (-1) 3 4) 1) with 3. change (vget (pt3 (-1) 3 4) 2) with 4. change (vget (pt3 (-1) 3 4) 0) with (-1).
    rewrite Eq. cbn. unfold pt3. f_equal. lra. }
  rewrite E. unfold tang. cbn. numR. unfold pt3. intros K. injection K as _ E2 E3.
  assert (c = 4/5) by lra. subst c. assert (q <> 0) by nra. assert (Hq' : 16 / q = 16/5) by lra.
  assert (q = 5); [|subst; lra]. apply (f_equal (fun z => z * q)) in Hq'. unfold Rdiv in Hq'. rewrite Rmult_assoc, Rinv_l in Hq' by auto. lra.
Qed.
Print Assumptions C20_refuted.
(** What does hold: the normal component is removed; with c the factor of the law, the first
    tangential component is scaled by c and the second by some d with c <= d <= 1, so no component
    is reversed or increased; the law is exact when one tangential component is zero. *)
Theorem C20_coulomb_plate_3D_partial : forall (p : @Par R (Geo3 R)) pl dt nfr Xi vi,
  objects p = [] -> pl_bc pl <> NoSlip -> in_plate pl (predicted dt Xi vi) ->
  vdot (vsub vi (pl_v pl)) (plate_normal (pl_type pl)) < 0 ->
  let mu := if use_mibf p then nfr else pl_fric pl in 0 <= mu ->
  let n := plate_normal (pl_type pl) in
  let w := vsub vi (pl_v pl) in
  forall k1 k2, (k1 < k2 < 3)%nat -> vget n k1 = 0 -> vget n k2 = 0 ->
  exists v', boundaryCollision p [pl] dt nfr Xi vi = Ok v' /\
    let w' := vsub v' (pl_v pl) in
    vdot w' n = 0 /\
    (exists c d, 0 <= c <= d /\ d <= 1 /\ vget w' k1 = c * vget w k1 /\ vget w' k2 = d * vget w k2 /\
       c * vnorm (tang n w) = Rmax 0 (vnorm (tang n w) - mu * Rabs (vdot w n))) /\
    (vget w k1 = 0 \/ vget w k2 = 0 -> coulomb mu n w w').
Proof.
  intros p pl dt nfr Xi vi EO NS I Hd mu Hm n w k1 k2 Hk N1 N2. apply plate_inside_spec in I.
  assert (K : k1 = fst (plate_tan (pl_type pl)) /\ k2 = snd (plate_tan (pl_type pl))).
  { clear -Hk N1 N2. unfold n in *. destruct (pl_type pl); cbn; destruct k1 as [|[|k1]], k2 as [|[|[|k2]]]; try lia; cbn in N1, N2; try lra; split; try reflexivity; lia. }
  destruct K as (-> & ->). rewrite single_plate by auto. eexists; split; [reflexivity|].
  assert (HG : two_or_three (Geo3 R)) by (exact (or_intror eq_refl)). assert (V : plate_valid (G := Geo3 R) (pl_type pl)) by (eapply plate_inside_valid; eauto).
  pose proof (fun w => vsub_vadd _ HG w (pl_v pl)) as S.
  unfold plate_collide. rewrite S. fold mu. fold w. apply (plate_towards_iff _ _ _ HG V) in Hd. fold w in Hd.
  assert (E : match pl_bc pl with NoSlip => vzero | SlipStick => plate_slide mu (pl_type pl) w
      | SlipFree => if plate_towards (pl_type pl) w then plate_slide mu (pl_type pl) w else w end = plate_slide mu (pl_type pl) w).
  { destruct (pl_bc pl); [congruence| |rewrite Hd]; auto. }
  rewrite E. split; [apply plate_slide_normal; auto|].
  destruct (plate_slide_3 mu (pl_type pl) w Hm) as (c & d & A & B & C & D & L & Z). split; [exists c, d; auto 10|exact Z].
Qed.
Print Assumptions C20_coulomb_plate_3D_partial.
Example C20_applies : exists v', boundaryCollision ep3 [plate3] 1 0 (pt3 0 0 0) (pt3 (-1) 3 4) = Ok v' /\ v3_0 v' = 0 /\ 0 <= v3_1 v' <= 3.
Proof.
  destruct (C20_coulomb_plate_3D_partial ep3 plate3 1 0 (pt3 0 0 0) (pt3 (-1) 3 4) eq_refl ltac:(discriminate) plate3_in) with (k1 := 1%nat) (k2 := 2%nat) as (v & E & N & (c & d & A & B & C & D & L) & _);
    [cbn; numR; lra|cbn; lra|lia|cbn; lra|cbn; lra|]. exists v. split; auto. destruct v as [a b e]. cbn in *. numR. split; [lra|]. nra.
Qed.

(** ** C21 *)
Theorem C21_terrain : forall (G : Geo R), two_or_three G ->
  forall p o dt nfr Xi vi n v', objects p = [o] ->
  inside (ob_shape o) (predicted dt Xi vi) = Ok true -> normal (ob_shape o) (predicted dt Xi vi) = Ok n -> vdot n n = 1 ->
  boundaryCollision p [] dt nfr Xi vi = Ok v' -> vsqnorm v' <= vsqnorm vi.
Proof.
  intros G HG p o dt nfr Xi vi n v' EO I En Hn E. pose proof (geolaws G HG). rewrite single_object with (o := o) in E by auto. rewrite En in E.
  eapply collide_contact; eauto.
Qed.
Print Assumptions C21_terrain.
(** In the frame of the plate. *)
Theorem C21_plate : forall (G : Geo R), two_or_three G ->
  forall p pl dt nfr Xi vi v', objects p = [] -> in_plate pl (predicted dt Xi vi) ->
  0 <= (if use_mibf p then nfr else pl_fric pl) ->
  boundaryCollision p [pl] dt nfr Xi vi = Ok v' -> vsqnorm (vsub v' (pl_v pl)) <= vsqnorm (vsub vi (pl_v pl)).
Proof.
  intros G HG p pl dt nfr Xi vi v' EO I Hf E. apply plate_inside_spec in I. rewrite single_plate in E by auto. injection E as <-.
  destruct (plate_contact G (use_mibf p) nfr pl vi HG) as (_ & En & _); [eapply plate_inside_valid; eauto|]. auto.
Qed.
Print Assumptions C21_plate.
(** Any number of terrain objects and resting plates. *)
Theorem C21_sequence : forall (G : Geo R), two_or_three G ->
  forall p plates dt nfr Xi vi v',
  (forall o, In o (objects p) -> forall X n, normal (ob_shape o) X = Ok n -> vdot n n = 1) ->
  (forall pl, In pl plates -> pl_v pl = vzero /\ 0 <= if use_mibf p then nfr else pl_fric pl) ->
  boundaryCollision p plates dt nfr Xi vi = Ok v' -> vsqnorm v' <= vsqnorm vi.
Proof. intros. eapply bc_energy; eauto. Qed.
Print Assumptions C21_sequence.
Example C21_applies : exists v', boundaryCollision (ep_obj [ex_ground SlipFree]) [] 1 0 (pt 0 1) (pt 2 (-3)) = Ok v' /\ vsqnorm v' <= 13.
Proof.
  destruct C19_applies as (v & E & _). exists v. split; auto.
  replace 13 with (vsqnorm (pt 2 (-3))) by (cbn; numR; lra).
  apply (C21_sequence (Geo2 R) (or_introl eq_refl) (ep_obj [ex_ground SlipFree]) [] 1 0 (pt 0 1)); auto; [|intros ? []].
  intros o [<-|[]] X n H. rewrite ex_normal in H. injection H as <-. apply ex_unit.
Qed.
(** The sign condition on friction matters: with a negative friction (which material-induced
    friction can produce, see C47) a 2D plate accelerates the node. *)
Theorem C21_negative_friction_refuted : exists (p : @Par R (Geo2 R)) pl dt nfr Xi vi v',
  objects p = [] /\ in_plate pl (predicted dt Xi vi) /\ pl_v pl = vzero /\ use_mibf p = true /\
  boundaryCollision p [pl] dt nfr Xi vi = Ok v' /\ vsqnorm vi < vsqnorm v'.
Proof.
  exists (ex_par (G := Geo2 R) Deg2 1 (-1) NoPlasticity ExpoImpl false true false []),
    (mkPlate (G := Geo2 R) 0 pbottom SlipFree 0 (-10) 10 vzero vzero 1 0), 1, (-2), (pt 0 0), (pt 1 (-1)), (pt 3 0).
  assert (I : plate_inside (mkPlate (G := Geo2 R) 0 pbottom SlipFree 0 (-10) 10 vzero vzero 1 0) (predicted 1 (pt 0 0) (pt 1 (-1))) = true)
    by (cbn; numR; rewrite !andb_true_iff, !Rltb_true, Rleb_true; lra).
  split; [reflexivity|]. split; [now apply plate_inside_spec|]. repeat split; auto; [|cbn; numR; lra]. rewrite single_plate by auto. f_equal.
  unfold plate_collide, plate_towards, plate_slide, plate_fric2. cbn [pl_bc pl_type pl_v pl_fric ex_par use_mibf plate_axis dim Geo2 Nat.eqb].
  cbn. numR. destruct (Rltb_spec (-1 - 0/1) (0/1)); [|lra]. destruct (Reqb_spec (-2) (0/1)); [lra|].
  rewrite (Rabs_pos_eq (1 - 0/1)), (Rabs_left (-1 - 0/1)) by lra. destruct (Rltb_spec (1 - 0/1) (-2 * - (-1 - 0/1))); [lra|].
  destruct (Rltb_spec (0/1) (1 - 0/1)); [|lra]. unfold pt. f_equal; cbn; lra.
Qed.
Print Assumptions C21_negative_friction_refuted.

(** ** C22 *)
Theorem C22_outside_untouched : forall (G : Geo R), two_or_three G ->
  forall p plates dt nfr Xi vi, Forall (outside_obj (predicted dt Xi vi)) (objects p) -> Forall (outside_plate (predicted dt Xi vi)) plates ->
  boundaryCollision p plates dt nfr Xi vi = Ok vi.
Proof.
  intros G HG p plates dt nfr Xi vi F Fp. unfold boundaryCollision. cbv zeta. fold (predicted dt Xi vi).
  unfold objects_loop. change (bind (foldM (ostep p nfr (predicted dt Xi vi)) (objects p) vi) (fun v => Ok (plates_loop p nfr plates (predicted dt Xi vi) v)) = Ok vi).
  rewrite objs_outside by auto. cbn [bind]. now rewrite plates_outside.
Qed.
Print Assumptions C22_outside_untouched.
(** Plates are processed after terrain objects. *)
Theorem C22_last_object_wins : forall (G : Geo R), two_or_three G ->
  forall p plates before o after dt nfr Xi vi n v', objects p = before ++ o :: after ->
  inside (ob_shape o) (predicted dt Xi vi) = Ok true -> Forall (outside_obj (predicted dt Xi vi)) after ->
  Forall (outside_plate (predicted dt Xi vi)) plates ->
  normal (ob_shape o) (predicted dt Xi vi) = Ok n -> vdot n n = 1 ->
  boundaryCollision p plates dt nfr Xi vi = Ok v' -> contact (ob_bc o) n vzero v'.
Proof.
  intros G HG p plates l1 o l2 dt nfr Xi vi n v' EO I F Fp En Hn E. pose proof (geolaws G HG).
  destruct (bc_last_object p plates l1 o l2 dt nfr Xi vi v' EO I F Fp E) as (v & C). rewrite En in C. eapply collide_contact; eauto.
Qed.
Print Assumptions C22_last_object_wins.
Theorem C22_last_plate_wins : forall (G : Geo R), two_or_three G ->
  forall p before pl after dt nfr Xi vi v', in_plate pl (predicted dt Xi vi) ->
  Forall (outside_plate (predicted dt Xi vi)) after ->
  boundaryCollision p (before ++ pl :: after) dt nfr Xi vi = Ok v' -> contact (pl_bc pl) (plate_normal (pl_type pl)) (pl_v pl) v'.
Proof.
  intros G HG p l1 pl l2 dt nfr Xi vi v' I F E. apply plate_inside_spec in I.
  destruct (bc_last_plate p _ l1 pl l2 dt nfr Xi vi v' eq_refl I F E) as (v & ->).
  apply (plate_contact G (use_mibf p) nfr pl v HG). eapply plate_inside_valid; eauto.
Qed.
Print Assumptions C22_last_plate_wins.

(** A wedge between the ground and an overhanging wall: the ground's condition is violated after
    the wall has been processed. *)
Definition wall : Obj R := mkObj (G := Geo2 R) (Custom (fun _ => true) (fun _ => Ok (pt (3/5) (-4/5)))) SlipFree 0.
Definition ground0 : Obj R := mkObj (G := Geo2 R) (Ground 0) SlipFree 0.
Theorem C22_earlier_contact_refuted : exists (p : @Par R (Geo2 R)) o1 o2 Xi vi v' n1 n2,
  objects p = [o1; o2] /\ (forall o, In o [o1; o2] -> inside (ob_shape o) (predicted 1 Xi vi) = Ok true) /\
  normal (ob_shape o1) (predicted 1 Xi vi) = Ok n1 /\ vdot n1 n1 = 1 /\ normal (ob_shape o2) (predicted 1 Xi vi) = Ok n2 /\ vdot n2 n2 = 1 /\
  boundaryCollision p [] 1 0 Xi vi = Ok v' /\ ~ contact (ob_bc o1) n1 vzero v'.
Proof.
  exists (ep_obj [ground0; wall]), ground0, wall, (pt 0 0), (pt (-1) (-1)), (pt (-16/25) (-12/25)), (pt 0 1), (pt (3/5) (-4/5)).
  assert (I : inside (ob_shape ground0) (predicted 1 (pt 0 0) (pt (-1) (-1))) = Ok true).
  { cbn. numR. f_equal. rewrite negb_true_iff, Rltb_false. lra. }
  split; [reflexivity|]. split; [intros o [<-|[<-|[]]]; [exact I|reflexivity]|].
  assert (N1 : forall X, normal (ob_shape ground0) X = Ok (pt 0 1)) by (intros; cbn; rewrite ?nofZ_R; numR; unfold pt; do 2 f_equal; lra).
  split; [apply N1|]. split; [cbn; numR; lra|]. split; [reflexivity|]. split; [cbn; numR; lra|]. split.
  - unfold boundaryCollision, objects_loop. cbv zeta. fold (predicted 1 (pt 0 0) (pt (-1) (-1))). cbn [ep_obj ex_par objects foldM].
    rewrite I, N1. cbn [bind ob_bc ground0].
    assert (C1 : collide SlipFree (if use_mibf (ep_obj [ground0; wall]) then 0 else ob_fric ground0) (Ok (pt 0 1)) (pt (-1) (-1)) = Ok (pt (-1) 0)).
    { rewrite collide_slip by discriminate. cbn [ob_fric ground0 ep_obj ex_par use_mibf]. destruct (Rltb_spec (vdot (pt (-1) (-1)) (pt 0 1)) 0) as [H|H].
      - rewrite slid_neg by lra. f_equal. unfold tang. cbn. numR. unfold pt. f_equal; lra.
      - exfalso. cbn in H. numR. lra. }
    unfold ground0 in C1 at 2. cbn [ob_fric ep_obj ex_par use_mibf] in C1. cbn [ob_fric ep_obj ex_par use_mibf]. change (ob_fric ground0) with 0. rewrite C1. cbn [bind wall ob_shape inside normal ob_bc ob_fric].
    rewrite collide_slip by discriminate. destruct (Rltb_spec (vdot (pt (-1) 0) (pt (3/5) (-4/5))) 0) as [H|H].
    + rewrite slid_neg by lra. cbn [bind plates_loop fold_left]. f_equal. unfold tang. cbn. numR. unfold pt. f_equal; lra.
    + exfalso. cbn in H. numR. lra.
  - cbn. numR. lra.
Qed.
Print Assumptions C22_earlier_contact_refuted.
Example C22_applies : contact SlipFree (pt (3/5) (-4/5)) vzero (pt (-16/25) (-12/25)) /\ outside_obj (predicted 1 (pt 0 5) (pt 2 (-3))) ground0.
Proof. split; [cbn; numR; lra|]. unfold outside_obj. cbn. numR. f_equal. rewrite negb_false_iff, Rltb_true. lra. Qed.

(** ** C23 *)
(** The terrains are the sublevel sets of [level] (for the silo: above its outlet). *)
Theorem C23_inside : forall (G : Geo R), two_or_three G -> forall s X, analytic s ->
  exists b, inside s X = Ok b /\
  (b = true <-> match s with
                | Ground _ | Curve => level s X <= 0
                | Silo cut => cut <= vget X 1 /\ level s X <= 0
                | _ => level s X < 0 end).
Proof. exact terrain_inside. Qed.
Print Assumptions C23_inside.
Definition C23_statement (G : Geo R) : Prop := forall s X, analytic s -> inside s X = Ok true ->
  exists n g, normal s X = Ok n /\ vdot n n = 1 /\ gradient_at (level s) X g /\ 0 < vnorm g /\ n = vdivs g (vnorm g).
(** Missing: the ground in 3D, see C23_ground_3D_refuted.  Outside a terrain the same holds, except
    on the axis of the silo. *)
Theorem C23_unit_normals_partial : forall (G : Geo R), two_or_three G -> forall s X, analytic s ->
  (match s with Ground _ => dim = 2%nat | Silo _ => inside s X = Ok true \/ vget X 0 <> 0 \/ vget X 2 <> 0 | _ => True end) ->
  exists n g, normal s X = Ok n /\ vdot n n = 1 /\ gradient_at (level s) X g /\ 0 < vnorm g /\ n = vdivs g (vnorm g).
Proof.
  intros G HG s X An C. pose proof (geolaws G HG).
  destruct (terrain_normal G HG s X An) as (g & Gr & P & E).
  { destruct s; auto. destruct C as [C|[C|C]]; [eapply silo_inside_off_axis; eauto| |];
      pose proof (Rle_0_sqr (vget X 0)); pose proof (Rle_0_sqr (vget X 2)); unfold Rsqr in *; nra. }
  destruct (normalized_unit g P) as (E1 & E2 & E3). exists (vnormalized g), g. auto 10.
Qed.
Print Assumptions C23_unit_normals_partial.
Theorem C23_holds_in_2D : C23_statement (Geo2 R).
Proof.
  intros s X An I. apply (C23_unit_normals_partial (Geo2 R) (or_introl eq_refl)); auto. destruct s; auto; discriminate.
Qed.
Print Assumptions C23_holds_in_2D.
(** ObjectGround::normal leaves the third component uninitialised in 3D. *)
Theorem C23_ground_3D_refuted : ~ C23_statement (Geo3 R).
Proof.
  intros S. destruct (S (Ground 0) (mkV3 0 (-1) 0) I) as (n & g & E & _); [|discriminate].
  cbn. numR. f_equal. rewrite negb_true_iff, Rltb_false. lra.
Qed.
Print Assumptions C23_ground_3D_refuted.
Example C23_applies : analytic (G := Geo3 R) (Silo 0) /\ inside (G := Geo3 R) (Silo 0) (mkV3 3 1 0) = Ok true.
Proof.
  split; [reflexivity|]. destruct (C23_inside (Geo3 R) (or_intror eq_refl) (Silo 0) (mkV3 3 1 0) eq_refl) as (b & E & Q). rewrite E. f_equal. apply Q.
  cbn. split; [lra|]. replace (sqrt _) with 3.
  - assert (tanh 1 < 1); [|lra]. unfold tanh. pose proof (cosh_pos 1). apply Rmult_lt_reg_r with (cosh 1); auto. unfold Rdiv. rewrite Rmult_assoc, Rinv_l by lra.
    unfold sinh, cosh. pose proof (exp_pos (-(1))). lra.
  - symmetry. replace (3 * (3 * 1) + 0 * (0 * 1)) with (3 * 3) by lra. apply sqrt_square. lra.
Qed.

(** ** C24 *)
(** [l] lists (dt, start time) of the steps; see SpecStep.v. *)
Theorem C24_plate_motion : forall (G : Geo R), two_or_three G -> forall svd uabs af p s0 l s1, run svd uabs af p s0 l s1 ->
  forall i pl, nth_error (s_plates s0) i = Some pl -> plate_valid (pl_type pl) ->
  exists pl', nth_error (s_plates s1) i = Some pl' /\
    pl_type pl' = pl_type pl /\ pl_bc pl' = pl_bc pl /\ pl_fric pl' = pl_fric pl /\
    pl_pos pl' = pl_pos pl + Rsum (fun a => fst a * vget (prescribed p pl (snd a)) (pos_dir (pl_type pl))) l /\
    pl_upper pl' - pl_lower pl' = pl_upper pl - pl_lower pl /\
    (forall d, ext_dir (pl_type pl) = Some d ->
       pl_lower pl' = pl_lower pl + Rsum (fun a => fst a * vget (prescribed p pl (snd a)) d) l).
Proof.
  intros G HG svd uabs af p s0 l s1 H i pl Hi V. pose proof (geolaws G HG).
  apply run_plates in H. rewrite H, nth_error_map, Hi. eexists; split; [reflexivity|].
  destruct (moves_spec p l pl V) as (A & B & C & D & E & F & _). auto 10.
Qed.
Print Assumptions C24_plate_motion.
(** The velocity used for collisions in a step is the one prescribed at the start of the previous
    step (by C18_plate the collision uses [pl_v]). *)
Theorem C24_collision_velocity_partial : forall (G : Geo R), two_or_three G -> forall svd uabs af p s0 l dt t s1, run svd uabs af p s0 (l ++ [(dt, t)]) s1 ->
  forall i pl, nth_error (s_plates s0) i = Some pl ->
  exists pl', nth_error (s_plates s1) i = Some pl' /\ pl_v pl' = prescribed p pl t.
Proof.
  intros G HG svd uabs af p s0 l dt t s1 H i pl Hi. pose proof (geolaws G HG).
  apply run_plates in H. rewrite H, nth_error_map, Hi. eexists; split; [reflexivity|]. apply moves_v.
Qed.
Print Assumptions C24_collision_velocity_partial.
(** In the first step there is no previous step: the full velocity is used although time is in the
    loading phase.  The plate is as constructed by ObjectPlate(...). *)
Theorem C24_first_step_refuted : exists (p : @Par R (Geo2 R)) pl Xi vi v',
  pl_v pl = pl_v0 pl /\ pl_bc pl = NoSlip /\ objects p = [] /\ in_plate pl (predicted 1 Xi vi) /\
  boundaryCollision p [pl] 1 0 Xi vi = Ok v' /\ v' <> prescribed p pl 0.
Proof.
  exists (ep_obj []), (mkPlate (G := Geo2 R) 0 pbottom NoSlip 0 (-10) 10 (pt 0 1) (pt 0 1) 10 1), (pt 0 0), (pt 0 (-1)), (pt 0 1).
  assert (I : plate_inside (mkPlate (G := Geo2 R) 0 pbottom NoSlip 0 (-10) 10 (pt 0 1) (pt 0 1) 10 1) (predicted 1 (pt 0 0) (pt 0 (-1))) = true)
    by (cbn; numR; rewrite !andb_true_iff, !Rltb_true, Rleb_true; lra).
  do 3 (split; [reflexivity|]). split; [now apply plate_inside_spec|]. split.
  - rewrite single_plate by auto. f_equal. cbn. numR. unfold pt. f_equal; lra.
  - unfold prescribed, frame_dt. cbn [pl_load pl_v0 pl_vmin ep_obj ex_par fps]. rewrite nofZ_R. numR.
    destruct (Rlt_dec 0 (1 * (1 / 1))); [|lra]. cbn. numR. unfold pt. intros E. injection E as _ E. lra.
Qed.
Print Assumptions C24_first_step_refuted.
