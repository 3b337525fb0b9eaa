(** * PropPbcF: C87, periodic boundaries in double precision. *)
From Coq Require Import ZArith Reals Lra Lia List Bool Floats.SpecFloat.
From Flocq Require Import Core.
From Verif Require Import Num NumF NumR Tools Lin Types Remesh Transfer Pbc Spec SpecF SpecGridF ResProofs PlasticModels LinProofs GridProofs RemeshProofs FloatBase FloatGrid FloatKernel FloatCont FloatPbc ExSimF PropGridF PropGridLater.
Import ListNotations.
Local Open Scope R_scope.

(** ** The wrap *)
(** A particle that leaves the period by less than one period is back between 0 and Lx, both included;
    on the right this shift is exact, on the left it is rounded; the other coordinates do not change. *)
Theorem C87_wrap : forall (L : Libm) (G : Geo F), two_or_threeF G -> forall (M : R) (p : Par F) (x : TV), let NF := NumF L in
  1 <= M <= 1048576 -> ffin (dx p) /\ bpow radix2 (-900) <= fval (dx p) <= bpow radix2 900 -> box_sideF M p (Lx p) -> use_pbc p = true ->
  ffin (vget x 0) -> - fval (Lx p) <= fval (vget x 0) <= 2 * fval (Lx p) ->
  let y := pbc_wrap p x in
  ffin (vget y 0) /\ 0 <= fval (vget y 0) <= fval (Lx p) /\
  (fval (vget y 0) = fval (vget x 0) \/ fval (vget y 0) = fval (vget x 0) - fval (Lx p) \/ Rabs (fval (vget y 0) - (fval (vget x 0) + fval (Lx p))) <= bpow radix2 (-52) * (M * fval (dx p))) /\
  forall k, (0 < k < dim)%nat -> vget y k = vget x k.
Proof. intros L G HG M p x NF HM Hd HL Hp Fx Bx. rewrite <- eps_bpow. now apply (wrap_F L HG p M HM Hd HL). Qed.

(** ** Images *)
(** With a period of at least eight cells: a particle within three cells of the left end has its image one period to the right,
    one within three cells of the right end (but not exactly at it) has its image one period to the left; up to rounding. *)
Theorem C87_images : forall (L : Libm) (G : Geo F), two_or_threeF G -> forall (M : R) (p : Par F) (x : TV), let NF := NumF L in
  1 <= M <= 1048576 -> ffin (dx p) /\ bpow radix2 (-900) <= fval (dx p) <= bpow radix2 900 -> box_sideF M p (Lx p) -> 8 * fval (dx p) <= fval (Lx p) ->
  ffin (vget x 0) -> 0 <= fval (vget x 0) < fval (Lx p) ->
  let close g s := ffin (vget g 0) /\ Rabs (fval (vget g 0) - (fval (vget x 0) + s)) <= bpow radix2 (-52) * (M * fval (dx p)) /\ forall k, (0 < k < dim)%nat -> vget g k = vget x k in
  (fval (vget x 0) <= 3 * fval (dx p) -> exists g, pbc_image p 4 x = Some g /\ close g (fval (Lx p))) /\
  (fval (Lx p) - fval (vget x 0) <= 3 * fval (dx p) -> exists g, pbc_image p 4 x = Some g /\ close g (- fval (Lx p))) /\
  (forall g, pbc_image p 4 x = Some g -> close g (fval (Lx p)) \/ close g (- fval (Lx p))).
Proof.
  intros L G HG M p x NF HM Hd HL H8 Fx Bx close. unfold NF in *. clear NF. pose proof (h_pos p Hd) as P. pose proof eps_pos as E0.
  pose proof (image_F L HG p M HM Hd HL x Fx ltac:(lra)) as K. unfold close. clear close. rewrite <- eps_bpow. set (h := fval (dx p)) in *.
  assert (e4 : eps * (12 * h) <= h / 1000) by (unfold eps; lra).
  destruct (pbc_image p 4 x) as [g|].
  - destruct K as ((s & Hs & Fg & Eg) & Kk). split; [|split].
    + intros H3. exists g. split; auto. destruct Hs as [(-> & _)|(-> & C)]; [auto|lra].
    + intros H3. exists g. split; auto. destruct Hs as [(-> & C)|(-> & _)]; [lra|auto].
    + intros g' Q. injection Q as <-. destruct Hs as [(-> & _)|(-> & _)]; auto.
  - destruct K as (K1 & K2). split; [lra|split; [lra|discriminate]].
Qed.

(** ** The grid *)
Lemma fixed_axes : forall (L : Libm) (G : Geo F), two_or_threeF G -> forall af M (p : Par F) (xs : list TV) axes, cloud_okF L M p xs -> box_okF M p -> (forall x, In x xs -> near_boxF M p x) ->
  remeshFixed (NA := NumF L) af p 4 = Ok axes -> axes_okF M p xs axes.
Proof.
  intros L G HG af M p xs axes Hc Hb Hn H. unfold remeshFixed in H. pose proof (mapM_length _ _ _ H) as Ln. rewrite seq_length in Ln. split; auto.
  intros k a Ha. assert (Hk : (k < dim)%nat) by (rewrite <- Ln; apply nth_error_Some; congruence). split; auto.
  eapply mapM_seq_nth in H; eauto. eapply fixed_axis_F; eauto. destruct (dimF G HG); lia.
Qed.
Definition opt_list {X} (o : option X) : list X := match o with Some x => [x] | None => [] end.
(** Particles and ghosts together meet the conditions. *)
Lemma ghosts_near : forall (L : Libm) (G : Geo F), two_or_threeF G -> forall M (p : Par F) (x g : TV), 1 <= M <= 1048576 -> ffin (dx p) /\ bpow radix2 (-900) <= fval (dx p) <= bpow radix2 900 -> box_okF M p ->
  ffin (vget x 0) -> in_periodF M p x -> near_boxF M p x -> pbc_image (NA := NumF L) p 4 x = Some g ->
  near_boxF M p g /\ ffin (vget g 0) /\ Rabs (fval (vget g 0)) <= M * fval (dx p) /\ forall k, (0 < k < dim)%nat -> vget g k = vget x k.
Proof.
  intros L G HG M p x g HM Hd Hb Fx (Bx & O1 & O2) (N0 & N1 & N2) Hg. pose proof (h_pos p Hd) as P. pose proof eps_pos as E0. destruct Hb as (HL & _). pose proof HL as (FL & BL).
  pose proof (image_F L HG p M HM Hd HL x Fx Bx) as K. rewrite Hg in K. destruct K as ((s & Hs & Fg & Eg) & Kk). pose proof (dimF G HG) as D.
  assert (W : bpow radix2 (-49) * (M + 8) ^ 2 = wob M) by (unfold wob; rewrite eps_bpow; replace (bpow radix2 (-49)) with (8 * bpow radix2 (-52)) by (cbn; lra); ring).
  rewrite W in *. set (h := fval (dx p)) in *. set (x0 := fval (vget x 0)) in *. set (l := fval (Lx p)) in *. apply Rabs_le_inv in Eg.
  assert (M6 : 6 <= M) by (assert (0 <= M - 6) by (apply Rmult_le_reg_r with h; lra); lra).
  assert (e1 : eps * (M + 12) <= wob M) by (unfold wob; nra). assert (w1 : wob M <= 1/100) by (unfold wob, eps; nra).
  assert (e2 : (eps * (M + 12)) * h <= wob M * h) by (apply Rmult_le_compat_r; lra). assert (e3 : wob M * h <= h / 100) by nra. assert (z : 0 <= eps * (M * h)) by (repeat apply Rmult_le_pos; lra). assert (z1 : 0 <= eps * h) by (apply Rmult_le_pos; lra).
  assert (Q : forall t, ~ (4 - 2 * wob M < t / h < 4 + 2 * wob M) -> t <= 4 * h + eps * (12 * h) -> t <= (4 - 2 * wob M) * h).
  { intros t Ht Hb. destruct (Rle_lt_dec t ((4 - 2 * wob M) * h)) as [C|C]; auto. exfalso. apply Ht. assert (Et : t = t / h * h) by (field; lra). split; apply Rmult_lt_reg_r with h; auto; rewrite <- Et; [lra|]. lra. }
  assert (R0 : - (4 - wob M) * h <= fval (vget g 0) <= l + (4 - wob M) * h /\ Rabs (fval (vget g 0)) <= M * h).
  { destruct Hs as [(-> & C)|(-> & C)].
    - pose proof (Q x0 O1 ltac:(lra)) as U. split; [split; lra|apply Rabs_le; lra].
    - pose proof (Q (l - x0) O2 ltac:(lra)) as U. split; [split; lra|apply Rabs_le; lra]. }
  destruct R0 as (R0 & R1). split; [|auto]. unfold near_boxF. rewrite W. fold h l. split; [exact R0|]. split.
  - rewrite (Kk 1%nat) by lia. exact N1.
  - intros D3. rewrite (Kk 2%nat) by lia. auto.
Qed.

(** In double precision the grid of a periodic simulation holds the whole stencil of every particle and of every ghost,
    if no particle is within rounding of zero height or of four cells from either end.  Both exceptions are real:
    [C87_ground_refuted], [C87_ghost_refuted]. *)
Theorem C87_periodic_grid_covers_partial : forall (L : Libm) (G : Geo F), two_or_threeF G ->
  forall (af : nat) (M : R) (p : Par F) (xs : list TV) axes, let NF := NumF L in
  cloud_okF L M p xs -> box_okF M p -> (forall x, In x xs -> in_periodF M p x /\ near_boxF M p x) ->
  remeshFixed af p 4 = Ok axes -> (prodlen axes <= 4294967295)%Z ->
  forall x, In x xs -> stencil_in_arraysF L p axes x /\ forall g, pbc_image p 4 x = Some g -> stencil_in_arraysF L p axes g.
Proof.
  intros L G HG af M p xs axes NF Hc Hb Hx H Hp x Ix. unfold NF in *. clear NF.
  set (ys := xs ++ flat_map (fun x => opt_list (pbc_image (NA := NumF L) p 4 x)) xs).
  assert (Y : forall y, In y ys -> In y xs \/ exists x, In x xs /\ pbc_image (NA := NumF L) p 4 x = Some y).
  { intros y Iy. apply in_app_or in Iy. destruct Iy as [Iy|Iy]; auto. right. apply in_flat_map in Iy. destruct Iy as (x' & I' & Iy). exists x'. split; auto. destruct (pbc_image (NA := NumF L) p 4 x') as [g'|]; cbn in Iy; [destruct Iy as [->|[]]; auto|destruct Iy]. }
  pose proof (dimF G HG) as D. assert (D0 : (0 < dim)%nat) by lia.
  assert (Gn : forall y, In y ys -> near_boxF M p y /\ forall k, (k < dim)%nat -> ffin (vget y k) /\ Rabs (fval (vget y k)) <= M * fval (dx p)).
  { intros y Iy. destruct (Y y Iy) as [I|(x' & I & Hg)].
    - split; [apply Hx; auto|]. intros k Hk. apply (cl_xs L M p xs Hc); auto.
    - destruct (Hx x' I) as (P1 & P2). destruct (cl_xs L M p xs Hc x' 0%nat I D0) as (F0 & _).
      destruct (ghosts_near L G HG M p x' y (cl_M L M p xs Hc) (cl_dx L M p xs Hc) Hb F0 P1 P2 Hg) as (R1 & R2 & R3 & R4). split; auto.
      intros [|k] Hk; [auto|]. rewrite R4 by lia. apply (cl_xs L M p xs Hc); auto. }
  assert (Hc' : cloud_okF L M p ys) by (constructor; [apply (cl_M L M p xs Hc)|apply (cl_dx L M p xs Hc)|intros y k Iy; now apply Gn|apply (cl_ref L M p xs Hc)]).
  assert (Ax : axes_okF M p ys axes) by (eapply fixed_axes; eauto; intros y Iy; now apply Gn).
  split.
  - eapply axes_cover; eauto. apply in_or_app. now left.
  - intros g Hg. eapply axes_cover; eauto. apply in_or_app. right. apply in_flat_map. exists x. split; auto. rewrite Hg. now left.
Qed.
Theorem C87_periodic_grid_exists : forall (L : Libm) (G : Geo F), two_or_threeF G -> forall (M : R) (p : Par F), let NF := NumF L in
  cloud_okF L M p [] -> box_okF M p -> exists n0, forall af, (n0 <= af)%nat -> exists axes, remeshFixed af p 4 = Ok axes.
Proof.
  intros L G HG M p NF Hc Hb. unfold remeshFixed.
  assert (K : forall l, (forall k, In k l -> (k < dim)%nat) -> exists n0, forall af, (n0 <= af)%nat -> exists am, mapM (remeshFixed_axis (NA := NumF L) af p 4) l = Ok am).
  { induction l as [|k l IH]; intros Hl.
    - exists 0%nat. intros af _. cbn. eauto.
    - destruct IH as (n1 & H1); [intros; apply Hl; right; auto|]. destruct (fixed_axis_ends L p M [] Hc k (Hl k (or_introl eq_refl)) ltac:(destruct (dimF G HG); lia) Hb) as (n2 & H2).
      exists (Nat.max n1 n2). intros af Haf. destruct (H1 af ltac:(lia)) as (r & Er). destruct (H2 af ltac:(lia)) as (y & Ey). cbn [mapM]. rewrite Ey. cbn [bind]. rewrite Er. cbn [bind]. eauto. }
  apply K. intros k Hk. apply in_seq in Hk. lia.
Qed.
Theorem C87_weights_partial : forall (L : Libm) (G : Geo F), two_or_threeF G ->
  forall (af : nat) (M : R) (p : Par F) (xs : list TV) axes x items, let NF := NumF L in
  cloud_okF L M p xs -> box_okF M p -> (forall x, In x xs -> near_boxF M p x) -> spline p = Deg2 ->
  remeshFixed af p 4 = Ok axes -> In x xs -> stencil base_p2g p axes x = Ok items ->
  (forall it, In it items -> ffin (it_w it) /\ 0 <= fval (it_w it) <= 1) /\
  Rabs (Rsum (fun it => fval (it_w it)) items - 1) <= 68 * bpow radix2 (-52) * (M + 8) ^ 2.
Proof. intros L G HG af M p xs axes x items NF Hc Hb Hn Hs H Hx Hst. eapply axes_weights; eauto. eapply fixed_axes; eauto. Qed.

(** ** What goes wrong at the exceptions *)
Lemma is_UB : forall X (r : res X), match r with UB => true | _ => false end = true -> r = UB.
Proof. intros X [x| |] H; try discriminate; reflexivity. Qed.
Definition perF_par (h l : F) : @Par F (Geo2 F) :=
  {| spline := Deg2; end_frame := 3; use_pbc := true; change_pos := false; gravity_special := false;
     save_sim := true; save_grid := true; use_mibf := false; use_musl := false;
     grid_ref := mkV2 (fofZ 20000000000) (fofZ 0); gravity0 := mkV2 (fofZ 0) (fofZ (-10));
     min_dt := fofQ 1 1000000000000; fps := fofZ 10; cfl := fofQ 1 2; cfl_elastic := fofQ 1 2;
     flip_ratio := fofQ (-95) 100; rho := fofZ 1000; gravity_time := fofZ 0; Lx := l; Ly := fofZ 1; Lz := fofZ 1;
     particle_mass := fofZ 1; particle_volume := fofZ 1; dx := h;
     elastic_model := Hencky; plastic_model := NoPlasticity; hardening_law := ExpoImpl;
     use_pradhana := true; young := fofZ 10000; nu := fofQ 3 10; stress_tolerance := fofQ 1 100000; xi := fofZ 0;
     q_max := fofZ 100; q_min := fofZ 100; p_min := fofZ (-100000000000000000000);
     Mfric := fofZ 1; q_cohesion := fofZ 0; visc_exponent := fofZ 1; visc_time := fofZ 0; use_dl := false;
     beta := fofZ 0; p0 := fofZ 1000; rho_s := fofZ 2500; grain_diameter := fofQ 1 1000; I_ref := fofQ 279 1000;
     mu_1 := fofQ 38 100; mu_2 := fofQ 64 100; q_prefac := fofQ 1 2; objects := [] |}.

(** Height zero: with a spacing of 0.09 the product dx * (1/dx) is rounded down below 1, and G2P converts -1 to an unsigned index.
    Over the reals this particle is covered (C33_periodic_grid_covers). *)
Theorem C87_ground_refuted : forall L : Libm, let NF := NumF L in let p := perF_par (fofQ 9 100) (fofZ 2) in
  exists axes, remeshFixed 40 p 4 = Ok axes /\ stencil base_g2p p axes (mkV2 (fofZ 1) (fofZ 0)) = UB.
Proof.
  intros L NF p. unfold NF, p. clear NF p.
  assert (K : exists axes, remeshFixed (NA := NumF L) 40 (perF_par (fofQ 9 100) (fofZ 2)) 4 = Ok axes /\ match stencil (NA := NumF L) (base_g2p (NA := NumF L)) (perF_par (fofQ 9 100) (fofZ 2)) axes (mkV2 (fofZ 1) (fofZ 0)) with UB => true | _ => false end = true) by (apply ok_intro; vm_compute; reflexivity).
  destruct K as (axes & E & K). exists axes. split; auto. exact (is_UB _ _ K).
Qed.
(** A particle just less than four cells from the left end: the position of its ghost is rounded to exactly four cells outside,
    and P2G reads past the last grid line. *)
Theorem C87_ghost_refuted : forall L : Libm, let NF := NumF L in let p := perF_par (fofQ 1 8) (fofZ 1) in
  exists axes x g, remeshFixed 40 p 4 = Ok axes /\ 0 < fval (vget x 0) < 4 * fval (dx p) /\ fval (vget x 1) = 1/2 /\
    pbc_image p 4 x = Some g /\ stencil base_p2g p axes g = UB.
Proof.
  intros L NF p. unfold NF, p. clear NF p.
  set (x := mkV2 (S754_finite false 9007199254740991 (-54)) (fofQ 1 2) : @TV F (Geo2 F)).
  assert (K : exists axes, remeshFixed (NA := NumF L) 40 (perF_par (fofQ 1 8) (fofZ 1)) 4 = Ok axes /\
    match pbc_image (NA := NumF L) (perF_par (fofQ 1 8) (fofZ 1)) 4 x with Some g => match stencil (NA := NumF L) (base_p2g (NA := NumF L)) (perF_par (fofQ 1 8) (fofZ 1)) axes g with UB => true | _ => false end | None => false end = true) by (apply ok_intro; vm_compute; reflexivity).
  destruct K as (axes & E & K). destruct (pbc_image (NA := NumF L) (perF_par (fofQ 1 8) (fofZ 1)) 4 x) as [g|] eqn:Eg; [|discriminate]. exists axes, x, g.
  assert (D : dx (perF_par (fofQ 1 8) (fofZ 1)) = S754_finite false 4503599627370496 (-55)) by (vm_compute; reflexivity).
  assert (B54 : bpow radix2 (-54) = / 18014398509481984) by (cbn; lra). assert (B55 : bpow radix2 (-55) = / 36028797018963968) by (cbn; lra). assert (B53 : bpow radix2 (-53) = / 9007199254740992) by (cbn; lra).
  split; [exact E|]. split.
  - rewrite D, fval_fin, B55. cbn [vget Geo2 v2_0 x]. rewrite fval_fin, B54. cbn [sfZ]. lra.
  - split; [|split; [exact Eg|]].
    + cbn [vget Geo2 v2_1 x]. assert (Q : fofQ 1 2 = S754_finite false 4503599627370496 (-53)) by (vm_compute; reflexivity). rewrite Q, fval_fin, B53. cbn [sfZ]. lra.
    + exact (is_UB _ _ K).
Qed.
(** A particle that crosses the left end by a tiny distance is put exactly on the right end, where it has no image
    (and it stays there without one until it moves). *)
Theorem C87_right_end_refuted : forall L : Libm, let NF := NumF L in let p := perF_par (fofQ 1 8) (fofZ 1) in
  exists x, fval (vget x 0) < 0 /\ fval (vget (pbc_wrap p x) 0) = fval (Lx p) /\ pbc_image p 4 (pbc_wrap p x) = None.
Proof.
  intros L NF p. unfold NF, p. clear NF p. exists (mkV2 (S754_finite true 4503599627370496 (-112)) (fofQ 1 2)). split; [|split].
  - cbn [vget Geo2 v2_0]. rewrite fval_fin. cbn [sfZ]. pose proof (bpow_gt_0 radix2 (-112)). lra.
  - apply f_equal. vm_compute. reflexivity.
  - reflexivity.
Qed.

(** ** A case that meets the hypotheses: spacing 1/8, period 1, a particle at (1/16, 1/2). *)
Definition perF_p : @Par F (Geo2 F) := perF_par (fofQ 1 8) (fofZ 1).
Definition perF_x : @TV F (Geo2 F) := mkV2 (fofQ 1 16) (fofQ 1 2).
Lemma perF_vals : (ffin (dx perF_p) /\ fval (dx perF_p) = 1/8) /\ (ffin (vget perF_x 0) /\ fval (vget perF_x 0) = 1/16) /\ (ffin (vget perF_x 1) /\ fval (vget perF_x 1) = 1/2).
Proof.
  assert (B53 : bpow radix2 (-53) = / 9007199254740992) by (cbn; lra). assert (B55 : bpow radix2 (-55) = / 36028797018963968) by (cbn; lra). assert (B56 : bpow radix2 (-56) = / 72057594037927936) by (cbn; lra).
  assert (E2 : vget perF_x 1 = S754_finite false 4503599627370496 (-53)) by (vm_compute; reflexivity).
  assert (E8 : dx perF_p = S754_finite false 4503599627370496 (-55)) by (vm_compute; reflexivity).
  assert (E16 : vget perF_x 0 = S754_finite false 4503599627370496 (-56)) by (vm_compute; reflexivity).
  split; [|split].
  - rewrite E8. split; [split; reflexivity|]. rewrite fval_fin, B55. cbn [sfZ]. lra.
  - rewrite E16. split; [split; reflexivity|]. rewrite fval_fin, B56. cbn [sfZ]. lra.
  - rewrite E2. split; [split; reflexivity|]. rewrite fval_fin, B53. cbn [sfZ]. lra.
Qed.
Lemma perF_ok : forall L, cloud_okF L 20 perF_p [perF_x] /\ box_okF 20 perF_p /\ in_periodF 20 perF_p perF_x /\ near_boxF 20 perF_p perF_x.
Proof.
  intros L. destruct perF_vals as ((Fd & Vd) & (F0 & V0) & (F1 & V1)).
  assert (W : 0 <= bpow radix2 (-49) * (20 + 8) ^ 2 <= 1/100) by (replace (bpow radix2 (-49)) with (/ 562949953421312) by (cbn; lra); split; lra).
  assert (Sx : ffin (Lx perF_p) /\ fval (Lx perF_p) = 1) by (apply (fofZ_spec 1); lia).
  assert (Sy : ffin (Ly perF_p) /\ fval (Ly perF_p) = 1) by (apply (fofZ_spec 1); lia).
  split; [|split; [|split]].
  - constructor.
    + lra.
    + split; [exact Fd|]. rewrite Vd. split.
      * apply Rle_trans with (bpow radix2 (-3)); [apply bpow_le; lia|]. change (/ 8 <= 1/8). lra.
      * apply Rle_trans with (bpow radix2 0); [|apply bpow_le; lia]. change (1/8 <= 1). lra.
    + intros x k [<-|[]] Hk. rewrite Vd. destruct k as [|[|k]]; try (cbn in Hk; lia).
      * rewrite V0. split; auto. apply Rabs_le. lra.
      * rewrite V1. split; auto. apply Rabs_le. lra.
    + intros C. vm_compute in C. discriminate.
  - unfold box_okF, box_sideF. rewrite Vd. destruct Sx as (? & ->). destruct Sy as (? & ->). split; [split; [auto|lra]|split; [split; [auto|lra]|intros C; discriminate]].
  - unfold in_periodF. rewrite Vd, V0. destruct Sx as (_ & ->). split; [lra|split; lra].
  - unfold near_boxF. rewrite Vd, V0, V1. destruct Sx as (_ & ->). destruct Sy as (_ & ->). split; [lra|]. split; [lra|]. intros C. discriminate.
Qed.
Example C87_ex : forall L, let NF := NumF L in exists axes g, remeshFixed 40 perF_p 4 = Ok axes /\ pbc_image perF_p 4 perF_x = Some g /\ fval (vget g 0) = 17/16 /\ stencil_in_arraysF L perF_p axes perF_x /\ stencil_in_arraysF L perF_p axes g.
Proof.
  intros L NF. unfold NF. clear NF. destruct (perF_ok L) as (Hc & Hb & Hi & Hn).
  assert (K : exists axes, remeshFixed (NA := NumF L) 40 perF_p 4 = Ok axes /\ (prodlen axes <=? 4294967295)%Z = true) by (apply ok_intro; vm_compute; reflexivity).
  destruct K as (axes & E & K). apply Z.leb_le in K. exists axes, (mkV2 (S754_finite false 4785074604081152 (-52)) (fofQ 1 2)).
  assert (Eg : pbc_image (NA := NumF L) perF_p 4 perF_x = Some (mkV2 (S754_finite false 4785074604081152 (-52)) (fofQ 1 2))) by (vm_compute; reflexivity).
  destruct (C87_periodic_grid_covers_partial L (Geo2 F) (or_introl eq_refl) 40 20 perF_p [perF_x] axes Hc Hb) with (x := perF_x) as (S1 & S2); auto.
  - intros x [<-|[]]. auto.
  - now left.
  - split; [exact E|]. split; [exact Eg|]. split; [|split; [exact S1|apply S2; exact Eg]]. cbn [vget Geo2 v2_0]. rewrite fval_fin. replace (bpow radix2 (-52)) with (/ 4503599627370496) by (cbn; lra). cbn [sfZ]. lra.
Qed.
Print Assumptions C87_wrap.
Print Assumptions C87_images.
Print Assumptions C87_periodic_grid_covers_partial.
Print Assumptions C87_periodic_grid_exists.
Print Assumptions C87_weights_partial.
Print Assumptions C87_ground_refuted.
Print Assumptions C87_ghost_refuted.
Print Assumptions C87_right_end_refuted.
