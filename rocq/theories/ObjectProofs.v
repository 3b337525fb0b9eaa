(** * ObjectProofs: boundary collision. *)
From Coq Require Import Reals ZArith Lra Lia List Bool.
From Verif Require Import Num NumR Tools Lin Types Objects SpecObj Spec LinProofs ResProofs.
Import ListNotations.
Local Open Scope R_scope.

Section Coll.
  Context {G : Geo R} {GL : GeoLaws G}.

  Lemma tang_n : forall n w, vdot n n = 1 -> vdot (tang n w) n = 0.
  Proof. intros n w H. unfold tang. rewrite vdot_sub_l, vdot_lscale_l, H. lra. Qed.
  Lemma pythagoras : forall n w, vdot n n = 1 -> vsqnorm w = vsqnorm (tang n w) + vdot w n * vdot w n.
  Proof.
    intros n w H. unfold tang, vsqnorm.
    rewrite !vdot_sub_l, !vdot_sub_r, !vdot_lscale_l, !vdot_lscale_r, H, (vdot_comm n w). ring.
  Qed.
  Lemma vsqnorm_lscale : forall c v, vsqnorm (lscale c v) = c * c * vsqnorm v.
  Proof. intros. unfold vsqnorm. rewrite vdot_lscale_l, vdot_lscale_r. ring. Qed.
  Lemma vnorm_lscale : forall c v, 0 <= c -> vnorm (lscale c v) = c * vnorm v.
  Proof.
    intros. unfold vnorm. rewrite vsqnorm_lscale. numR. rewrite sqrt_mult, sqrt_square; auto; [nra|apply vsqnorm_nonneg].
  Qed.
  Lemma vnormalized_pos : forall v, 0 < vnorm v -> vnormalized v = vdivs v (vnorm v).
  Proof.
    intros v H. unfold vnormalized. rewrite nofZ_R. numR. destruct (Rltb_spec 0 (vsqnorm v)); [reflexivity|].
    pose proof (vnorm_sq v). pose proof (vsqnorm_nonneg v). nra.
  Qed.

  (** Both slip branches with a node moving inwards. *)
  Definition slid (fric : R) (n v : TV) : res TV :=
    let dot := vdot v n in let vt := vsub v (lscale dot n) in
    (if nltb (nofZ 0) fric then
       if nltb (nmul (nopp dot) fric) (vnorm vt)
       then Ok (vadd vt (vscale (vscale (vnormalized vt) dot) fric))
       else Ok vzero
     else Ok vt).
  Lemma slid_coulomb : forall fric n v, vdot n n = 1 -> vdot v n < 0 -> 0 <= fric ->
    exists v', slid fric n v = Ok v' /\ coulomb fric n v v'.
  Proof.
    intros fric n v Hn Hd Hf. unfold slid. cbv zeta. rewrite nofZ_R. numR. fold (tang n v).
    pose proof (vnorm_nonneg (tang n v)) as P. rewrite <- (Rabs_left (vdot v n)) by auto.
    set (dd := Rabs (vdot v n)) in *. assert (Hdd : dd = - vdot v n) by (unfold dd; now apply Rabs_left).
    destruct (Rltb_spec 0 fric) as [Hf'|Hf'].
    - destruct (Rltb_spec (dd * fric) (vnorm (tang n v))) as [H|H].
      + assert (0 < vnorm (tang n v)) by nra.
        rewrite vnormalized_pos by auto.
        set (c := 1 - fric * dd / vnorm (tang n v)).
        assert (E : vadd (tang n v) (vscale (vscale (vdivs (tang n v) (vnorm (tang n v))) (vdot v n)) fric) = lscale c (tang n v)).
        { vx. unfold c. rewrite Hdd. numR. field. lra. }
        rewrite E. eexists; split; [reflexivity|].
        assert (Hc : 0 <= c <= 1).
        { unfold c. assert (0 <= fric * dd / vnorm (tang n v) <= 1); [|lra].
          split; [apply Rmult_le_pos; [nra|left; now apply Rinv_0_lt_compat]|].
          apply Rmult_le_reg_r with (vnorm (tang n v)); auto. unfold Rdiv. rewrite Rmult_assoc, Rinv_l by lra. lra. }
        split; [exists c; auto|]. rewrite vnorm_lscale by lra. fold dd. rewrite Rmax_right by lra.
        unfold c. field. lra.
      + eexists; split; [reflexivity|]. split.
        * exists 0. split; [lra|]. vx. numR. lra.
        * rewrite vnorm_zero. fold dd. rewrite Rmax_left; lra.
    - eexists; split; [reflexivity|]. split.
      + exists 1. split; [lra|]. vx. numR. lra.
      + fold dd. replace fric with 0 by lra. rewrite Rmax_right; lra.
  Qed.
  Lemma slid_exists : forall fric n v, exists v', slid fric n v = Ok v'.
  Proof. intros. unfold slid. cbv zeta. destruct (nltb _ fric); [destruct (nltb _ (vnorm _))|]; eauto. Qed.
  Lemma slid_neg : forall fric n v, fric <= 0 -> slid fric n v = Ok (tang n v).
  Proof. intros. unfold slid. rewrite nofZ_R. numR. destruct (Rltb_spec 0 fric); [lra|reflexivity]. Qed.
  (** collide in terms of slid. *)
  Lemma collide_slip : forall bc fric n v, bc <> NoSlip ->
    collide bc fric (Ok n) v =
      if Rltb (vdot v n) 0 then slid fric n v
      else Ok (match bc with SlipStick => tang n v | _ => v end).
  Proof.
    intros bc fric n v H. destruct bc; [congruence| |]; unfold collide; cbn [bind]; cbv zeta; rewrite nofZ_R; numR;
      destruct (Rltb (vdot v n) 0); try reflexivity; unfold slid; rewrite nofZ_R; numR; reflexivity.
  Qed.
  (** For any sign of the friction the outcome of slid is c times the tangential part, 0 <= c <= 1. *)
  Lemma slid_factor : forall fric n v v', vdot n n = 1 -> vdot v n < 0 -> slid fric n v = Ok v' ->
    exists c, 0 <= c <= 1 /\ v' = lscale c (tang n v).
  Proof.
    intros fric n v v' Hn Hd E. destruct (Rle_dec 0 fric).
    - destruct (slid_coulomb fric n v Hn Hd r) as (w & E' & (C & _)). rewrite E in E'. injection E' as <-. auto.
    - rewrite slid_neg in E by lra. injection E as <-. exists 1. split; [lra|]. vx. numR. lra.
  Qed.

  Theorem collide_contact : forall bc fric n v v', vdot n n = 1 -> collide bc fric (Ok n) v = Ok v' ->
    contact bc n vzero v' /\ vsqnorm v' <= vsqnorm v /\ (bc = SlipFree -> 0 <= vdot v n -> v' = v).
  Proof.
    intros bc fric n v v' Hn E. assert (Hb : bc = NoSlip \/ bc <> NoSlip) by (destruct bc; auto; right; discriminate). destruct Hb as [->|Hb].
    - cbn in E. injection E as <-. cbn. repeat split; [|discriminate]. rewrite vsqnorm_zero. apply vsqnorm_nonneg.
    - rewrite collide_slip in E by auto. pose proof (pythagoras n v Hn) as Py.
      destruct (Rltb_spec (vdot v n) 0) as [Hd|Hd].
      + destruct (slid_factor fric n v v' Hn Hd E) as (c & Hc & ->).
        assert (Z : vdot (lscale c (tang n v)) n = 0) by (rewrite vdot_lscale_l, tang_n by auto; lra).
        split; [destruct bc; try congruence; unfold contact; rewrite vsub_0_r, Z; lra|]. split; [|intros; lra].
        rewrite vsqnorm_lscale, Py. pose proof (vsqnorm_nonneg (tang n v)).
        assert (c * c <= 1) by nra. assert (0 <= vdot v n * vdot v n) by apply Rle_0_sqr.
        assert (0 <= (1 - c * c) * vsqnorm (tang n v)) by (apply Rmult_le_pos; lra). lra.
      + injection E as <-. destruct bc; try congruence; unfold contact; rewrite vsub_0_r.
        * repeat split; [apply tang_n; auto|rewrite Py; pose proof (Rle_0_sqr (vdot v n)) as Q; unfold Rsqr in Q; lra|discriminate].
        * repeat split; [lra|lra].
  Qed.
End Coll.

(** ** Plates *)
Definition plate_valid {G : Geo R} (t : PlateType) : Prop :=
  match t with pfront | pback => dim = 3%nat | _ => True end.
Lemma plate_inside_valid : forall (G : Geo R) pl X, two_or_three G -> plate_inside pl X = true -> plate_valid (pl_type pl).
Proof.
  intros G pl X HG H. unfold plate_inside, plate_valid in *. destruct (pl_type pl); auto;
    destruct HG as [->| ->]; cbn in *; auto; discriminate.
Qed.

(** One tangential component against friction f*|vn|. *)
Lemma fric2_law : forall f vt vn, 0 <= f ->
  exists c, 0 <= c <= 1 /\ plate_fric2 f vt vn = c * vt /\ Rabs (plate_fric2 f vt vn) = Rmax 0 (Rabs vt - f * Rabs vn).
Proof.
  intros f vt vn Hf. unfold plate_fric2. rewrite nofZ_R. numR.
  assert (Hv : 0 <= f * Rabs vn) by (apply Rmult_le_pos; [auto|apply Rabs_pos]).
  set (g := f * Rabs vn) in *. pose proof (Rabs_pos vt).
  destruct (Reqb_spec f 0).
  - exists 1. replace g with 0 by (unfold g; subst; lra). repeat split; try lra. rewrite Rmax_right; lra.
  - destruct (Rltb_spec (Rabs vt) g).
    + exists 0. repeat split; try lra. rewrite Rabs_R0, Rmax_left; lra.
    + rewrite Rmax_right by lra. destruct (Rltb_spec 0 vt).
      * assert (Rabs vt = vt) by (apply Rabs_pos_eq; lra).
        exists ((vt - g) / vt). repeat split.
        -- apply Rmult_le_pos; [lra|left; apply Rinv_0_lt_compat; lra].
        -- apply Rmult_le_reg_r with vt; auto. unfold Rdiv. rewrite Rmult_assoc, Rinv_l by lra. lra.
        -- field. lra.
        -- rewrite Rabs_pos_eq by lra. lra.
      * assert (Rabs vt = - vt) by (apply Rabs_left1; lra).
        destruct (Req_dec vt 0) as [->|Nz].
        -- rewrite Rabs_R0 in *. assert (g0 : g = 0) by lra. exists 0. repeat split; try lra. rewrite g0, Rplus_0_r, Rabs_R0. lra.
        -- exists ((vt + g) / vt). repeat split.
           ++ replace ((vt + g) / vt) with ((- vt - g) / (- vt)) by (field; lra).
              apply Rmult_le_pos; [lra|left; apply Rinv_0_lt_compat; lra].
           ++ replace ((vt + g) / vt) with ((- vt - g) / (- vt)) by (field; lra).
              apply Rmult_le_reg_r with (- vt); [lra|]. unfold Rdiv. rewrite Rmult_assoc, Rinv_l by lra. lra.
           ++ field. lra.
           ++ rewrite Rabs_left1 by lra. lra.
Qed.

Lemma sgn_R : forall x : R, nofZ (sgn x) = if Rlt_dec 0 x then 1 else if Rlt_dec x 0 then -1 else 0.
Proof.
  intros. unfold sgn. rewrite !nofZ_R. numR.
  destruct (Rltb_spec 0 x); destruct (Rltb_spec x 0); destruct (Rlt_dec 0 x); destruct (Rlt_dec x 0); try lra; reflexivity.
Qed.

(** sgn(t) * s / sqrt(1 + o^2/t^2) = s * t / sqrt(t^2+o^2), also for t = 0. *)
Lemma fric3_comp : forall t o s : R, IZR (sgn t) * s / sqrt (1 + o * o / (t * t)) = s * t / sqrt (t * t + o * o).
Proof.
  intros t o s. rewrite <- nofZ_R, sgn_R. destruct (Req_dec t 0) as [->|Nz].
  - destruct (Rlt_dec 0 0); [lra|]. unfold Rdiv. rewrite (Rmult_0_r s), !Rmult_0_l. reflexivity.
  - assert (0 < t * t) by nra. assert (0 <= o * o) by nra.
    assert (Sp : 0 < sqrt (t * t + o * o)) by (apply sqrt_lt_R0; lra).
    replace (1 + o * o / (t * t)) with ((t * t + o * o) / (t * t)) by (field; auto).
    rewrite sqrt_div_alt by auto. 
    replace (sqrt (t * t)) with (Rabs t) by (symmetry; apply sqrt_Rsqr_abs).
    destruct (Rlt_dec 0 t).
    + rewrite (Rabs_pos_eq t) by lra. field. lra.
    + destruct (Rlt_dec t 0); [|lra]. rewrite (Rabs_left t) by lra. field. lra.
Qed.

(** 3D: what the plate friction does (see C20). *)
Lemma fric3_law : forall f t1 t2 vn, 0 <= f ->
  let vt := sqrt (t1 * t1 + t2 * t2) in
  let law := Rmax 0 (vt - f * Rabs vn) in
  let '(a, b) := plate_fric3 f t1 t2 vn in
  exists c d, 0 <= c <= 1 /\ 0 <= d <= 1 /\ c <= d /\ a = c * t1 /\ b = d * t2 /\
    c * vt = law /\ (t1 = 0 \/ t2 = 0 -> sqrt (a * a + b * b) = law).
Proof.
  intros f t1 t2 vn Hf. cbv zeta. unfold plate_fric3. rewrite !nofZ_R. numR.
  assert (Hv : 0 <= f * Rabs vn) by (apply Rmult_le_pos; [auto|apply Rabs_pos]).
  set (g := f * Rabs vn) in *. set (vt := sqrt (t1 * t1 + t2 * t2)).
  assert (Pv : 0 <= vt) by apply sqrt_pos.
  assert (Sq : vt * vt = t1 * t1 + t2 * t2) by (apply sqrt_sqrt; nra).
  destruct (Reqb_spec f 0).
  - assert (g = 0) by (unfold g; subst; lra). exists 1, 1. repeat split; try lra; [rewrite Rmax_right; lra|].
    intros _. fold vt. rewrite Rmax_right; lra.
  - destruct (Rleb_spec vt g).
    + exists 0, 0. rewrite Rmax_left by lra. repeat split; try lra. intros _. replace (0*0+0*0) with 0 by lra. apply sqrt_0.
    + rewrite !fric3_comp. fold vt. rewrite Rmax_right by lra.
      assert (0 < vt) by lra. set (c := (vt - g) / vt).
      assert (Hc : 0 < c <= 1).
      { unfold c. split; [apply Rmult_lt_0_compat; [lra|now apply Rinv_0_lt_compat]|].
        apply Rmult_le_reg_r with vt; auto. unfold Rdiv. rewrite Rmult_assoc, Rinv_l; lra. }
      assert (Ea : (vt - g) * t1 / vt = c * t1) by (unfold c; field; lra). rewrite Ea.
      assert (Ec : c * vt = vt - g) by (unfold c; field; lra).
      set (q := sqrt (t2 * t2 + c * t1 * (c * t1))).
      assert (Qs : q * q = t2 * t2 + c * t1 * (c * t1)) by (apply sqrt_sqrt; nra). assert (Qp : 0 <= q) by apply sqrt_pos.
      assert (Lo : c * vt <= q).
      { apply Rsqr_incr_0_var; auto. unfold Rsqr. rewrite Qs. replace (c * vt * (c * vt)) with (c * c * (vt * vt)) by ring. rewrite Sq.
        assert (0 <= (1 - c * c) * (t2 * t2)) by (apply Rmult_le_pos; nra). lra. }
      assert (Hi : q <= vt). { apply Rsqr_incr_0_var; auto. unfold Rsqr. rewrite Qs, Sq. assert (0 <= (1 - c * c) * (t1 * t1)) by (apply Rmult_le_pos; nra). lra. }
      assert (0 < q) by nra.
      exists c, ((vt - g) / q).
      assert (D1 : (vt - g) / q <= 1) by (apply Rmult_le_reg_r with q; auto; unfold Rdiv; rewrite Rmult_assoc, Rinv_l; lra).
      assert (D2 : c <= (vt - g) / q).
      { apply Rmult_le_reg_r with q; auto. unfold Rdiv. rewrite Rmult_assoc, Rinv_l by lra. nra. }
      split; [lra|]. split; [split; [lra|auto]|]. split; [auto|]. split; [auto|]. split; [field; lra|]. split; [auto|].
      { intros [Z|Z].
        -- subst t1. assert (Eq : q = Rabs t2) by (unfold q; rewrite !Rmult_0_r, Rplus_0_r; apply sqrt_Rsqr_abs).
           assert (Ev : vt = Rabs t2) by (unfold vt; rewrite !Rmult_0_r, Rplus_0_l; apply sqrt_Rsqr_abs).
           replace (q) with vt by lra.
           rewrite !Rmult_0_r, Rplus_0_l. replace ((vt - g) * t2 / vt) with (c * t2) by (unfold c; field; lra).
           transitivity (Rabs (c * t2)); [apply sqrt_Rsqr_abs|]. rewrite Rabs_mult, (Rabs_pos_eq c) by lra. rewrite <- Ev. auto.
        -- subst t2. replace ((vt - g) * 0 / q) with 0 by (field; lra). rewrite !Rmult_0_r, Rplus_0_r.
           transitivity (Rabs (c * t1)); [apply sqrt_Rsqr_abs|].
           assert (Ev : vt = Rabs t1) by (unfold vt; rewrite !Rmult_0_r, Rplus_0_r; apply sqrt_Rsqr_abs).
           rewrite Rabs_mult, (Rabs_pos_eq c) by lra. rewrite <- Ev. auto. }
Qed.

Ltac geo3 := unfold contact, tang, plate_normal, evec, plate_slide, plate_towards, plate_axis, plate_tan, vsqnorm, vdot, sumd, sumto,
  vsub, vadd, lscale, vset, vzero in *;
  cbn [dim Geo2 Geo3 vget vtab v2_0 v2_1 v3get v3_0 v3_1 v3_2 Nat.eqb pred sumto] in *; rewrite ?nofZ_R in *; numR.

Lemma plate_unit : forall (G : Geo R) t, two_or_three G -> plate_valid t -> vdot (plate_normal t) (plate_normal t) = 1.
Proof. intros G t [->| ->] V; destruct t; cbn in V; try discriminate; geo3; lra. Qed.
Lemma plate_towards_iff : forall (G : Geo R) t w, two_or_three G -> plate_valid t ->
  (plate_towards t w = true <-> vdot w (plate_normal t) < 0).
Proof.
  intros G t w [->| ->] V; [destruct w as [a b]|destruct w as [a b c]]; destruct t; cbn in V; try discriminate; geo3;
    rewrite Rltb_true; split; intros; lra.
Qed.
Lemma plate_slide_normal : forall (G : Geo R) f t w, two_or_three G -> plate_valid t ->
  vdot (plate_slide f t w) (plate_normal t) = 0.
Proof.
  intros G f t w [->| ->] V; [destruct w as [a b]|destruct w as [a b c]]; destruct t; cbn in V; try discriminate; geo3;
    try (destruct (plate_fric3 _ _ _ _)); geo3; lra.
Qed.
Lemma plate_slide_energy : forall (G : Geo R) f t w, two_or_three G -> plate_valid t -> 0 <= f ->
  vsqnorm (plate_slide f t w) <= vsqnorm (tang (plate_normal t) w).
Proof.
  assert (Q : forall c x : R, 0 <= c <= 1 -> c * x * (c * x) <= x * x).
  { intros c x H. assert (0 <= (1 - c * c) * (x * x)) by (apply Rmult_le_pos; nra). lra. }
  intros G f t w [->| ->] V Hf.
  - destruct w as [a b]; destruct t; cbn in V; try discriminate; geo3;
    match goal with |- context [plate_fric2 ?f ?x ?y] => destruct (fric2_law f x y Hf) as (k & K & -> & _); specialize (Q k x K) end; lra.
  - destruct w as [a b c]; destruct t; geo3;
    match goal with |- context [plate_fric3 ?f ?x ?y ?z] => pose proof (fric3_law f x y z Hf) as L;
      destruct (plate_fric3 f x y z) as [t1 t2]; destruct L as (k & l & K & L & _ & -> & -> & _);
      pose proof (Q k x K); pose proof (Q l y L) end; geo3; lra.
Qed.
Lemma plate_slide_coulomb2 : forall f t (w : @TV R (Geo2 R)), plate_valid t -> 0 <= f ->
  coulomb f (plate_normal t) w (plate_slide f t w).
Proof.
  intros f t w V Hf. destruct w as [a b]. unfold coulomb, vnorm.
  destruct t; cbn in V; try discriminate; geo3;
   match goal with |- context [plate_fric2 ?f ?x ?y] => destruct (fric2_law f x y Hf) as (k & K & E & L);
     split; [exists k; split; [auto|]; rewrite E; f_equal; lra|];
     match goal with |- sqrt ?u = Rmax 0 (sqrt ?v - _ * Rabs ?z) =>
        replace u with (Rsqr (plate_fric2 f x y)) by (unfold Rsqr; lra);
        replace v with (Rsqr x) by (unfold Rsqr; lra);
        replace (Rabs z) with (Rabs y);
        [rewrite !sqrt_Rsqr_abs; auto|try (f_equal; lra); rewrite <- Rabs_Ropp; f_equal; lra] end end.
Qed.
(** 3D plates: both tangential components shrink, the first by the factor of the law, the second by
    at most that much. *)
Lemma plate_slide_3 : forall f t (w : @TV R (Geo3 R)), 0 <= f ->
  let n := plate_normal t in
  let law := Rmax 0 (vnorm (tang n w) - f * Rabs (vdot w n)) in
  let w' := plate_slide f t w in
  let k1 := fst (plate_tan t) in let k2 := snd (plate_tan t) in
  exists c d, 0 <= c <= d /\ d <= 1 /\ vget w' k1 = c * vget w k1 /\ vget w' k2 = d * vget w k2 /\
    c * vnorm (tang n w) = law /\
    (vget w k1 = 0 \/ vget w k2 = 0 -> coulomb f n w w').
Proof.
  intros f t w Hf. cbv zeta. destruct w as [a b e]. unfold coulomb, vnorm.
  destruct t; geo3; cbn [fst snd];
  match goal with |- context [plate_fric3 ?f ?x ?y ?z] => pose proof (fric3_law f x y z Hf) as L;
      destruct (plate_fric3 f x y z) as [t1 t2]; destruct L as (k & l & K & L & KL & -> & -> & E & C);
      exists k, l; geo3; split; [lra|]; split; [lra|]; split; [auto|]; split; [auto|];
      match goal with |- context [sqrt ?v] => replace v with (x * x + y * y) by lra end;
      match goal with |- context [Rabs ?zz] => replace (Rabs zz) with (Rabs z);
        [|try (f_equal; lra); rewrite <- Rabs_Ropp; f_equal; lra] end; split; [auto|];
      intros Z; split;
      [|match goal with |- sqrt ?u = _ => replace u with (k * x * (k * x) + l * y * (l * y)) by lra end; auto];
      (destruct (Req_dec x 0) as [Zx|Nx];
       [exists l; split; [lra|]; rewrite Zx; f_equal; lra
       |exists k; split; [lra|]; destruct Z as [Z|Z]; [contradiction|]; rewrite Z; f_equal; lra]) end.
Qed.

(** One plate. *)
Theorem plate_contact : forall (G : Geo R) mibf nfr pl v, two_or_three G -> plate_valid (pl_type pl) ->
  let fric := if (mibf : bool) then nfr else pl_fric pl in
  let v' := plate_collide mibf nfr pl v in
  let n := plate_normal (pl_type pl) in
  contact (pl_bc pl) n (pl_v pl) v' /\
  (0 <= fric -> vsqnorm (vsub v' (pl_v pl)) <= vsqnorm (vsub v (pl_v pl))) /\
  (pl_bc pl = SlipFree -> 0 <= vdot (vsub v (pl_v pl)) n -> v' = v).
Proof.
  intros G mibf nfr pl v HG V. cbv zeta. pose proof (geolaws G HG) as GL. unfold plate_collide. cbv zeta.
  set (fric := if mibf then nfr else pl_fric pl). set (u := pl_v pl). set (t := pl_type pl) in *.
  assert (S : forall w, vsub (vadd w u) u = w) by (intros; vx; numR; lra).
  assert (S' : vadd (vsub v u) u = v) by (vx; numR; lra).
  set (w := vsub v u) in *. pose proof (plate_unit G t HG V) as U.
  assert (En : 0 <= fric -> vsqnorm (plate_slide fric t w) <= vsqnorm w).
  { intros Hf. rewrite (pythagoras (plate_normal t) w U). pose proof (plate_slide_energy G fric t w HG V Hf).
    pose proof (Rle_0_sqr (vdot w (plate_normal t))) as Q. unfold Rsqr in Q. lra. }
  destruct (pl_bc pl); cbn [contact]; rewrite ?S.
  - split; [vx; numR; lra|]. split; [intros; rewrite vsqnorm_zero; apply vsqnorm_nonneg|discriminate].
  - split; [apply plate_slide_normal; auto|]. split; [auto|discriminate].
  - destruct (plate_towards t w) eqn:E.
    + apply plate_towards_iff in E; auto. rewrite plate_slide_normal by auto. split; [lra|]. split; auto. intros; lra.
    + assert (0 <= vdot w (plate_normal t)).
      { apply Rnot_lt_le. intros H. apply (plate_towards_iff G t w HG V) in H. congruence. }
      auto using Rle_refl.
Qed.

(** ** Sequences *)
Definition outside_obj {G : Geo R} (X : TV) (o : Obj R) : Prop := inside (ob_shape o) X = Ok false.
Lemma plate_inside_spec : forall (G : Geo R) pl X, plate_inside pl X = true <-> in_plate pl X.
Proof.
  intros G pl X. unfold plate_inside, in_plate. rewrite ?nofZ_R. numR. cbv zeta. destruct (pl_type pl); rewrite ?andb_true_iff, ?Rltb_true, ?Rleb_true.
  1-4: split; intros; lra.
  all: destruct dim as [|[|[|[|n]]]]; rewrite ?Rleb_true; split; intros H; try discriminate; try (destruct H; discriminate); try (split; [reflexivity|lra]); lra.
Qed.
Lemma plate_outside_spec : forall (G : Geo R) pl X, outside_plate X pl <-> plate_inside pl X = false.
Proof. intros G pl X. unfold outside_plate. rewrite <- plate_inside_spec. apply not_true_iff_false. Qed.
Section Seq.
  Context {G : Geo R}.
  Variable p : Par R.
  Definition ostep (nfr : R) (X : TV) (v : TV) (o : Obj R) : res TV :=
    c <- inside (ob_shape o) X ;;
    if (c : bool) then collide (ob_bc o) (if use_mibf p then nfr else ob_fric o) (normal (ob_shape o) X) v else Ok v.
  Lemma objs_outside : forall nfr X l v, Forall (outside_obj X) l -> foldM (ostep nfr X) l v = Ok v.
  Proof. intros nfr X l. induction l; intros v F; [reflexivity|]. inversion F; subst. simpl. unfold ostep at 1. rewrite H1. simpl. auto. Qed.
  Lemma plates_outside : forall nfr X l v, Forall (outside_plate X) l -> plates_loop p nfr l X v = v.
  Proof. intros nfr X l. induction l; intros v F; [reflexivity|]. inversion F as [|? ? H1]; subst. apply plate_outside_spec in H1. unfold plates_loop in *. simpl. rewrite H1. auto. Qed.
  Lemma plates_app : forall nfr X l1 l2 v, plates_loop p nfr (l1 ++ l2) X v = plates_loop p nfr l2 X (plates_loop p nfr l1 X v).
  Proof. intros. apply fold_left_app. Qed.
  Lemma bc_last_plate : forall plates l1 pl l2 dt nfr Xi vi v', plates = l1 ++ pl :: l2 ->
    plate_inside pl (predicted dt Xi vi) = true -> Forall (outside_plate (predicted dt Xi vi)) l2 ->
    boundaryCollision p plates dt nfr Xi vi = Ok v' -> exists v, v' = plate_collide (use_mibf p) nfr pl v.
  Proof.
    intros plates l1 pl l2 dt nfr Xi vi v' -> I F E. unfold boundaryCollision in E. cbv zeta in E. fold (predicted dt Xi vi) in E.
    apply bind_Ok in E. destruct E as (v & _ & E). injection E as <-. rewrite plates_app.
    exists (plates_loop p nfr l1 (predicted dt Xi vi) v). unfold plates_loop at 1. simpl. rewrite I. now apply plates_outside.
  Qed.
  Lemma bc_last_object : forall plates l1 o l2 dt nfr Xi vi v', objects p = l1 ++ o :: l2 ->
    inside (ob_shape o) (predicted dt Xi vi) = Ok true -> Forall (outside_obj (predicted dt Xi vi)) l2 ->
    Forall (outside_plate (predicted dt Xi vi)) plates ->
    boundaryCollision p plates dt nfr Xi vi = Ok v' ->
    exists v, collide (ob_bc o) (if use_mibf p then nfr else ob_fric o) (normal (ob_shape o) (predicted dt Xi vi)) v = Ok v'.
  Proof.
    intros plates l1 o l2 dt nfr Xi vi v' EO I F Fp E. unfold boundaryCollision in E. cbv zeta in E. fold (predicted dt Xi vi) in E.
    apply bind_Ok in E. destruct E as (v & E & E2). injection E2 as <-. rewrite plates_outside by auto.
    unfold objects_loop in E. rewrite EO in E. change (foldM (ostep nfr (predicted dt Xi vi)) (l1 ++ o :: l2) vi = Ok v) in E.
    rewrite foldM_app in E. apply bind_Ok in E. destruct E as (v0 & _ & E). simpl in E. apply bind_Ok in E. destruct E as (v1 & E1 & E2).
    exists v0. unfold ostep in E1. rewrite I in E1. simpl in E1. rewrite objs_outside in E2 by auto. congruence.
  Qed.
  (** Speed over the whole sequence, resting plates. *)
  Lemma bc_energy : two_or_three G -> forall plates dt nfr Xi vi v',
    (forall o, In o (objects p) -> forall X n, normal (ob_shape o) X = Ok n -> vdot n n = 1) ->
    (forall pl, In pl plates -> pl_v pl = vzero /\ 0 <= if use_mibf p then nfr else pl_fric pl) ->
    boundaryCollision p plates dt nfr Xi vi = Ok v' -> vsqnorm v' <= vsqnorm vi.
  Proof.
    intros HG plates dt nfr Xi vi v' Un Rest E. pose proof (geolaws G HG) as GL. unfold boundaryCollision in E. cbv zeta in E.
    apply bind_Ok in E. destruct E as (v & E & E2). injection E2 as <-. set (X := vadd Xi (lscale dt vi)) in *.
    apply Rle_trans with (vsqnorm v).
    - clear E. revert v. induction plates as [|pl l IH]; intros v; [apply Rle_refl|]. unfold plates_loop in *. simpl.
      eapply Rle_trans; [apply IH; intros; apply Rest; now right|]. destruct (plate_inside pl X) eqn:I; [|apply Rle_refl].
      destruct (Rest pl (or_introl eq_refl)) as (Z & Hf).
      destruct (plate_contact G (use_mibf p) nfr pl v HG) as (_ & En & _); [eapply plate_inside_valid; eauto|].
      specialize (En Hf). rewrite Z, !vsub_0_r in En. auto.
    - unfold objects_loop in E. revert E. apply foldM_inv with (I := fun w => vsqnorm w <= vsqnorm vi); [apply Rle_refl|].
      intros o s s' Ho Hs E. apply bind_Ok in E. destruct E as (c & _ & E). destruct c; [|injection E as <-; auto].
      eapply Rle_trans; [|exact Hs]. destruct (normal (ob_shape o) X) as [n| |] eqn:En.
      + eapply collide_contact; eauto.
      + destruct (ob_bc o); try discriminate. cbn in E. injection E as <-. rewrite vsqnorm_zero. apply vsqnorm_nonneg.
      + destruct (ob_bc o); try discriminate. cbn in E. injection E as <-. rewrite vsqnorm_zero. apply vsqnorm_nonneg.
  Qed.
End Seq.
