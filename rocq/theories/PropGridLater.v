(** * PropGridLater: C86, the grids after the first one, in double precision. *)
From Coq Require Import ZArith Reals Lra Lia List Bool Floats.SpecFloat.
From Flocq Require Import Core.
From Verif Require Import Num NumF NumR Tools Lin Types Remesh Transfer Spec SpecF SpecGridF ResProofs PlasticModels LinProofs GridProofs RemeshProofs FloatBase FloatGrid FloatKernel FloatCont ExSimF PropGridF.
Import ListNotations.
Local Open Scope R_scope.

Lemma off_free : forall (G : Geo F) M (p : Par F) m x, off_cell_edgesF M p m x ->
  free p M ((fval (ma_min m) - fval x) / fval (dx p)) /\ free p M ((fval x - fval (ma_max m)) / fval (dx p)).
Proof.
  intros G M p m x (H1 & H2). assert (W : wob M = bpow radix2 (-49) * (M + 8) ^ 2) by (unfold wob; rewrite eps_bpow; replace (bpow radix2 (-49)) with (8 * bpow radix2 (-52)) by (cbn; lra); ring).
  assert (Gp : gap p = fval (dx p) / 100000000) by (unfold gap; lra).
  split; intros n Hn C; [apply (H1 n Hn)|apply (H2 n Hn)]; rewrite <- W, <- Gp; exact C.
Qed.

Lemma combine_seq_nth : forall X (l : list X) s n k y, nth_error (combine l (seq s n)) k = Some y -> nth_error l k = Some (fst y) /\ snd y = (s + k)%nat /\ (k < n)%nat.
Proof.
  intros X l. induction l as [|a l IH]; intros s n k y H; [destruct k; discriminate|]. destruct n as [|n]; [destruct k; discriminate|]. cbn [seq combine] in H.
  destruct k as [|k]; cbn [nth_error] in H.
  - injection H as <-. cbn. repeat split; lia.
  - apply IH in H. destruct H as (H1 & H2 & H3). cbn [nth_error]. repeat split; auto; lia.
Qed.
Lemma mapM_nth' : forall X Y (f : X -> res Y) l r, mapM f l = Ok r -> forall k y, nth_error r k = Some y -> exists x, nth_error l k = Some x /\ f x = Ok y.
Proof.
  intros X Y f l. induction l as [|a l IH]; intros r H k y Hy; cbn [mapM] in H.
  - apply Ok_inj in H. subst r. destruct k; discriminate.
  - apply bind_Ok in H. destruct H as (b & E & H). apply bind_Ok in H. destruct H as (r' & Er & H). apply Ok_inj in H. subst r. destruct k as [|k]; cbn [nth_error] in *.
    + injection Hy as <-. eauto.
    + eapply IH; eauto.
Qed.

Lemma init_mesh : forall (L : Libm) (G : Geo F) af M (p : Par F) (xs : list TV) am, cloud_okF L M p xs -> remeshFixedInit (NA := NumF L) af p 2 xs = Ok am ->
  length am = dim /\ forall k m, nth_error (map snd am) k = Some m -> (k < dim)%nat /\ mesh_okF p M m.
Proof.
  intros L G af M p xs am Hc H. unfold remeshFixedInit in H. pose proof (mapM_length _ _ _ H) as Ln. rewrite seq_length in Ln. split; auto.
  intros k m Hm. rewrite nth_error_map in Hm. destruct (nth_error am k) as [[a m']|] eqn:E; [|discriminate]. injection Hm as ->.
  assert (Hk : (k < dim)%nat) by (rewrite <- Ln; apply nth_error_Some; congruence). split; auto.
  eapply mapM_seq_nth in H; eauto. eapply init_axis_F in H; eauto. destruct H as (_ & H1 & H2 & H3 & H4). now constructor.
Qed.
Lemma cont_axes : forall (L : Libm) (G : Geo F) af af' M (p : Par F) (xs0 xs : list TV) am axes, cloud_okF L M p xs0 -> cloud_okF L M p xs -> fval (dx p) <= 1048576 ->
  remeshFixedInit (NA := NumF L) af p 2 xs0 = Ok am -> remeshFixedCont (NA := NumF L) af' p xs (map snd am) = Ok axes ->
  (forall x k m, In x xs -> nth_error (map snd am) k = Some m -> off_cell_edgesF M p m (vget x k)) ->
  axes_okF M p xs axes.
Proof.
  intros L G af af' M p xs0 xs am axes Hc0 Hc Hd1 H0 H Ho. destruct (init_mesh L G af M p xs0 am Hc0 H0) as (Ln & Me). unfold remeshFixedCont in H. split.
  - rewrite (mapM_length _ _ _ H), combine_length, seq_length, map_length, Ln. apply Nat.min_id.
  - intros k a Ha. destruct (mapM_nth' _ _ _ _ _ H k a Ha) as (y & Hy & Ey). apply combine_seq_nth in Hy. destruct Hy as (Y1 & Y2 & Y3). cbn in Y2. split; auto.
    rewrite Y2 in Ey. destruct (Me k _ Y1) as (_ & Mk). eapply cont_axis_F; eauto. intros x Hx. apply off_free. eauto.
Qed.

(** Every grid after the first one also holds the whole stencil of every particle, unless some particle has moved
    outside the first cloud's range by a whole number of cells, up to rounding and the code's safety term.
    That exception is real: see [C86_refuted]. *)
Theorem C86_later_grids_cover_partial : forall (L : Libm) (G : Geo F), two_or_threeF G ->
  forall (af af' : nat) (M : R) (p : Par F) (xs0 xs : list TV) am axes, let NF := NumF L in
  cloud_okF L M p xs0 -> cloud_okF L M p xs -> fval (dx p) <= 1048576 ->
  remeshFixedInit af p 2 xs0 = Ok am -> remeshFixedCont af' p xs (map snd am) = Ok axes -> (prodlen axes <= 4294967295)%Z ->
  (forall x k m, In x xs -> nth_error (map snd am) k = Some m -> off_cell_edgesF M p m (vget x k)) ->
  forall x, In x xs -> stencil_in_arraysF L p axes x.
Proof.
  intros L G HG af af' M p xs0 xs am axes NF Hc0 Hc Hd1 H0 H Hp Ho x Hx. eapply axes_cover; eauto. eapply cont_axes; [exact Hc0| | | | |]; eauto.
Qed.

(** Laying it out always ends, and succeeds. *)
Theorem C86_later_grids_exist_partial : forall (L : Libm) (G : Geo F) (af : nat) (M : R) (p : Par F) (xs0 xs : list TV) am, let NF := NumF L in
  cloud_okF L M p xs0 -> cloud_okF L M p xs -> fval (dx p) <= 1048576 -> xs <> [] ->
  remeshFixedInit af p 2 xs0 = Ok am ->
  (forall x k m, In x xs -> nth_error (map snd am) k = Some m -> off_cell_edgesF M p m (vget x k)) ->
  exists n0, forall af', (n0 <= af')%nat -> exists axes, remeshFixedCont af' p xs (map snd am) = Ok axes.
Proof.
  intros L G af M p xs0 xs am NF Hc0 Hc Hd1 Hne H0 Ho. destruct (init_mesh L G af M p xs0 am Hc0 H0) as (Ln & Me). unfold remeshFixedCont.
  assert (K : forall l, (forall y, In y l -> nth_error (map snd am) (snd y) = Some (fst y)) -> exists n0, forall af', (n0 <= af')%nat -> exists r, mapM (fun mk => remeshCont_axis (NA := NumF L) af' p xs (fst mk) (snd mk)) l = Ok r).
  { induction l as [|y l IH]; intros Hl.
    - exists 0%nat. intros af' _. cbn. eauto.
    - destruct IH as (n1 & H1); [intros; apply Hl; right; auto|]. pose proof (Hl y (or_introl eq_refl)) as Hy. destruct (Me _ _ Hy) as (Hk & Mk).
      destruct (cont_axis_ends L p M xs Hc Hd1 (snd y) (fst y) Hk Hne Mk) as (n2 & H2); [intros x Hx; apply off_free; eauto|].
      exists (Nat.max n1 n2). intros af' Haf. destruct (H1 af' ltac:(lia)) as (r & Er). destruct (H2 af' ltac:(lia)) as (a & Ea). cbn [mapM]. rewrite Ea. cbn [bind]. rewrite Er. cbn [bind]. eauto. }
  apply K. intros y Hy. apply In_nth_error in Hy. destruct Hy as (k & Hy). apply combine_seq_nth in Hy. destruct Hy as (Y1 & Y2 & _). cbn in Y2. now rewrite Y2.
Qed.

(** The weights in a later grid. *)
Theorem C86_weights_partial : forall (L : Libm) (G : Geo F), two_or_threeF G ->
  forall (af af' : nat) (M : R) (p : Par F) (xs0 xs : list TV) am axes x items, let NF := NumF L in
  cloud_okF L M p xs0 -> cloud_okF L M p xs -> fval (dx p) <= 1048576 -> spline p = Deg2 ->
  remeshFixedInit af p 2 xs0 = Ok am -> remeshFixedCont af' p xs (map snd am) = Ok axes ->
  (forall x k m, In x xs -> nth_error (map snd am) k = Some m -> off_cell_edgesF M p m (vget x k)) ->
  In x xs -> stencil base_p2g p axes x = Ok items ->
  (forall it, In it items -> ffin (it_w it) /\ 0 <= fval (it_w it) <= 1) /\
  Rabs (Rsum (fun it => fval (it_w it)) items - 1) <= 68 * bpow radix2 (-52) * (M + 8) ^ 2.
Proof.
  intros L G HG af af' M p xs0 xs am axes x items NF Hc0 Hc Hd1 Hs H0 H Ho Hx Hst. eapply axes_weights; eauto. eapply cont_axes; [exact Hc0| | | | |]; eauto.
Qed.

(** Particles that stay within the range of the first cloud are never on a cell edge in the above sense. *)
Lemma inside_off : forall (G : Geo F) M (p : Par F) m x, 1 <= M <= 1048576 -> 0 < fval (dx p) ->
  fval (ma_min m) <= fval x <= fval (ma_max m) -> off_cell_edgesF M p m x.
Proof.
  intros G M p m x HM P Hx. unfold off_cell_edgesF. set (h := fval (dx p)) in *.
  assert (W : 0 <= bpow radix2 (-49) * (M + 8) ^ 2 <= 1/100) by (replace (bpow radix2 (-49)) with (/ 562949953421312) by (cbn; lra); split; nra).
  split; intros n Hn (C1 & _); apply IZR_le in Hn; assert (Q : forall d, d <= 0 -> d / h <= 0) by (intros d D; apply Rmult_le_reg_r with h; auto; unfold Rdiv; rewrite Rmult_assoc, Rinv_l by lra; lra).
  - specialize (Q (fval (ma_min m) - fval x) ltac:(lra)). lra.
  - specialize (Q (fval x - fval (ma_max m)) ltac:(lra)). lra.
Qed.

(** The first grid remembers a range that holds the first cloud. *)
Lemma init_range : forall (L : Libm) (G : Geo F) af M (p : Par F) (xs : list TV) am k m, cloud_okF L M p xs -> remeshFixedInit (NA := NumF L) af p 2 xs = Ok am ->
  nth_error (map snd am) k = Some m -> forall x, In x xs -> fval (ma_min m) <= fval (vget x k) <= fval (ma_max m).
Proof.
  intros L G af M p xs am k m Hc H Hm x Hx. destruct (init_mesh L G af M p xs am Hc H) as (Ln & Me). destruct (Me k m Hm) as (Hk & _).
  rewrite nth_error_map in Hm. destruct (nth_error am k) as [[a m']|] eqn:E; [|discriminate]. injection Hm as ->.
  unfold remeshFixedInit in H. eapply mapM_seq_nth in H; eauto. unfold remeshInit_axis in H.
  apply bind_Ok in H. destruct H as (mx0 & E1 & H). apply bind_Ok in H. destruct H as (mn0 & E2 & H).
  destruct (extremes L p M xs Hc k Hk mx0 mn0 E1 E2) as (F1 & F2 & B1 & B2 & Hle & Hxs).
  destruct (ref_adjust (NA := NumF L) p k mn0 mx0) as (mn, mx) eqn:Er. destruct (ref_F L p M xs Hc k mn0 mx0 mn mx Hk F2 F1 B2 B1 Hle Er) as (_ & _ & _ & _ & Lm & Lx).
  cbv zeta in H. apply bind_Ok in H. destruct H as (a' & _ & H). apply Ok_inj in H. apply pair_equal_spec in H. destruct H as (_ & <-). cbn [ma_min ma_max]. destruct (Hxs x Hx). lra.
Qed.

(** As long as the particles stay, axis by axis, within the range of the first cloud, no exception is needed. *)
Theorem C86_within_first_range : forall (L : Libm) (G : Geo F), two_or_threeF G ->
  forall (af af' : nat) (M : R) (p : Par F) (xs0 xs : list TV) am axes, let NF := NumF L in
  cloud_okF L M p xs0 -> cloud_okF L M p xs -> fval (dx p) <= 1048576 ->
  remeshFixedInit af p 2 xs0 = Ok am -> remeshFixedCont af' p xs (map snd am) = Ok axes -> (prodlen axes <= 4294967295)%Z ->
  (forall x k, In x xs -> (k < dim)%nat -> exists a b, In a xs0 /\ In b xs0 /\ fval (vget a k) <= fval (vget x k) <= fval (vget b k)) ->
  forall x, In x xs -> stencil_in_arraysF L p axes x.
Proof.
  intros L G HG af af' M p xs0 xs am axes NF Hc0 Hc Hd1 H0 H Hp Hr x Hx. eapply C86_later_grids_cover_partial; [exact HG|exact Hc0| | | | | | |]; eauto.
  intros y k m Hy Hm. destruct (init_mesh L G af M p xs0 am Hc0 H0) as (_ & Me). destruct (Me k m Hm) as (Hk & _). destruct (Hr y k Hy Hk) as (a & b & Ia & Ib & Hab).
  apply inside_off; [apply (cl_M L M p xs Hc)|apply (h_pos p (cl_dx L M p xs Hc))|].
  pose proof (init_range L G af M p xs0 am k m Hc0 H0 Hm a Ia). pose proof (init_range L G af M p xs0 am k m Hc0 H0 Hm b Ib). lra.
Qed.

(** ** The exception is real *)
(** The claim without the exception. *)
Definition C86_statement (L : Libm) : Prop :=
  forall (G : Geo F), two_or_threeF G ->
  forall (af af' : nat) (M : R) (p : Par F) (xs0 xs : list TV) am axes, let NF := NumF L in
  cloud_okF L M p xs0 -> cloud_okF L M p xs -> fval (dx p) <= 1048576 ->
  remeshFixedInit af p 2 xs0 = Ok am -> remeshFixedCont af' p xs (map snd am) = Ok axes -> (prodlen axes <= 4294967295)%Z ->
  forall x, In x xs -> stencil_in_arraysF L p axes x.

Definition one_p : @Par F (Geo2 F) := gridF_par (fofZ 1).
Definition one_x (a : Z) : @TV F (Geo2 F) := mkV2 (fofZ a) (fofZ 0).
Lemma one_cloud : forall L a, (0 <= a <= 1)%Z -> cloud_okF L 2 one_p [one_x a].
Proof.
  intros L a Ha. assert (V : fval (dx one_p) = 1) by (change (dx one_p) with (fofZ 1); apply (fofZ_spec 1); lia).
  constructor.
  - lra.
  - split; [apply (fofZ_spec 1); lia|]. rewrite V. change 1 with (bpow radix2 0). split; apply bpow_le; lia.
  - intros x k [<-|[]] Hk. rewrite V. assert (0 <= IZR a <= 1) by (split; apply IZR_le; lia).
    destruct k as [|[|k]]; try (cbn in Hk; lia); cbn [vget Geo2 v2_0 v2_1 one_x].
    + destruct (fofZ_spec a ltac:(lia)) as (Fa & ->). split; auto. apply Rabs_le. lra.
    + destruct (fofZ_spec 0 ltac:(lia)) as (Fa & ->). split; auto. apply Rabs_le. lra.
  - intros C. vm_compute in C. discriminate.
Qed.
(** One particle, spacing 1, moving from 0 to 1: the grid of the second step misses the last column of its stencil. *)
Theorem C86_refuted : forall L : Libm, let NF := NumF L in ~ C86_statement L /\
  exists am axes, remeshFixedInit 20 one_p 2 [one_x 0] = Ok am /\ remeshFixedCont 20 one_p [one_x 1] (map snd am) = Ok axes /\ stencil base_p2g one_p axes (one_x 1) = UB.
Proof.
  intros L NF. unfold NF. clear NF.
  assert (K : exists am, remeshFixedInit (NA := NumF L) 20 one_p 2 [one_x 0] = Ok am /\ match remeshFixedCont (NA := NumF L) 20 one_p [one_x 1] (map snd am) with Ok axes => ((prodlen axes <=? 4294967295)%Z && match stencil (NA := NumF L) (base_p2g (NA := NumF L)) one_p axes (one_x 1) with UB => true | _ => false end)%bool | _ => false end = true) by (apply ok_intro; vm_compute; reflexivity).
  destruct K as (am & E & K). apply ok_intro in K. destruct K as (axes & E' & K). apply andb_true_iff in K. destruct K as (Kp & Ks). apply Z.leb_le in Kp.
  assert (S : stencil (NA := NumF L) (base_p2g (NA := NumF L)) one_p axes (one_x 1) = UB) by (destruct (stencil _ _ axes (one_x 1)); try discriminate; reflexivity).
  split; [|exists am, axes; auto].
  intros C. destruct (C (Geo2 F) (or_introl eq_refl) 20%nat 20%nat 2 one_p [one_x 0] [one_x 1] am axes (one_cloud L 0 ltac:(lia)) (one_cloud L 1 ltac:(lia))) with (x := one_x 1) as (items & Q & _); auto.
  - change (dx one_p) with (fofZ 1). rewrite (proj2 (fofZ_spec 1 ltac:(lia))). lra.
  - now left.
  - rewrite S in Q. discriminate.
Qed.

(** ** A case that meets the hypotheses: the first grid is made for (0.3, 0.7) and (-0.2, 0.1);
    then the upper particle has fallen to (0.3, 0.1).  The new grid has fewer rows. *)
Section Ex.
  Local Instance nfx' : Num F := NumF ExSimF.libm0.
  Local Existing Instance Geo2.
  Definition gridF_xs' : list (@TV F (Geo2 F)) := [mkV2 (nofQ (-2) 10) (nofQ 1 10); mkV2 (nofQ 3 10) (nofQ 1 10)].
  Lemma gridF_cloud' : cloud_okF ExSimF.libm0 8 gridF_p gridF_xs'.
  Proof.
    constructor; try apply gridF_cloud. intros x k [<-|[<-|[]]] Hk.
    - apply (cl_xs _ _ _ _ gridF_cloud); auto. right. now left.
    - destruct k as [|[|k]]; try (cbn in Hk; lia).
      + apply (cl_xs _ _ _ _ gridF_cloud (mkV2 (nofQ 3 10) (nofQ 7 10)) 0%nat); auto. now left.
      + apply (cl_xs _ _ _ _ gridF_cloud (mkV2 (nofQ (-2) 10) (nofQ 1 10)) 1%nat); auto. right. now left.
  Qed.
  Example C86_ex : exists am axes, remeshFixedInit 20 gridF_p 2 gridF_xs = Ok am /\ remeshFixedCont 20 gridF_p gridF_xs' (map snd am) = Ok axes /\
    map (fun a => length (ax_co a)) axes <> map (fun am => length (ax_co (fst am))) am /\ forall x, In x gridF_xs' -> stencil_in_arraysF ExSimF.libm0 gridF_p axes x.
  Proof.
    assert (K : exists am, remeshFixedInit 20 gridF_p 2 gridF_xs = Ok am /\ match remeshFixedCont 20 gridF_p gridF_xs' (map snd am) with Ok axes => ((prodlen axes <=? 4294967295)%Z && negb (forallb (fun z => fst z =? snd z)%nat (combine (map (fun a => length (ax_co a)) axes) (map (fun am => length (ax_co (fst am))) am))))%bool | _ => false end = true) by (apply ok_intro; vm_compute; reflexivity).
    destruct K as (am & E & K). apply ok_intro in K. destruct K as (axes & E' & K). apply andb_true_iff in K. destruct K as (Kp & Ks). apply Z.leb_le in Kp. exists am, axes. do 2 (split; [assumption|]). split.
    - intros Q. rewrite Q in Ks. apply negb_true_iff in Ks. assert (T : forall l, forallb (fun z => fst z =? snd z)%nat (combine l l) = true) by (induction l; cbn; rewrite ?Nat.eqb_refl; auto). rewrite T in Ks. discriminate.
    - eapply (C86_within_first_range ExSimF.libm0 (Geo2 F) (or_introl eq_refl) 20 20 8 gridF_p gridF_xs gridF_xs' am axes gridF_cloud gridF_cloud'); auto.
      + assert (E0 : dx gridF_p = S754_finite false 7205759403792794 (-56)) by (vm_compute; reflexivity). rewrite E0, fval_fin. replace (bpow radix2 (-56)) with (/ 72057594037927936) by (cbn; lra). cbn. lra.
      + intros x k [<-|[<-|[]]] Hk; destruct k as [|[|k]]; try (cbn in Hk; lia); cbn [vget Geo2 v2_0 v2_1].
        * exists (mkV2 (nofQ (-2) 10) (nofQ 1 10)), (mkV2 (nofQ (-2) 10) (nofQ 1 10)). cbn. repeat split; auto; lra.
        * exists (mkV2 (nofQ (-2) 10) (nofQ 1 10)), (mkV2 (nofQ (-2) 10) (nofQ 1 10)). cbn. repeat split; auto; lra.
        * exists (mkV2 (nofQ 3 10) (nofQ 7 10)), (mkV2 (nofQ 3 10) (nofQ 7 10)). cbn. repeat split; auto; lra.
        * exists (mkV2 (nofQ (-2) 10) (nofQ 1 10)), (mkV2 (nofQ (-2) 10) (nofQ 1 10)). cbn. repeat split; auto; lra.
  Qed.
End Ex.
Print Assumptions C86_later_grids_cover_partial.
Print Assumptions C86_later_grids_exist_partial.
Print Assumptions C86_weights_partial.
Print Assumptions C86_within_first_range.
Print Assumptions C86_refuted.
