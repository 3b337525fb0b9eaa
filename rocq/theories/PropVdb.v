(** * Properties C56 to C58: VDB objects, sampling from them, and initialize(). *)
From Coq Require Import Reals ZArith Lra Lia List Bool Psatz Permutation.
From Verif Require Import Num NumR Tools Lin Types Remesh Transfer Step Sampling Output Spec SpecStep SpecObj LinProofs ResProofs GridProofs Objects ObjectProofs Examples ExStep PlasticModels PropBoundary PropSample.
From Flocq Require Import Core.Raux.
Import ListNotations.
Local Open Scope R_scope.

(** ** Words of the statements *)
Section Words.
  Context {G : Geo R}.
  (** Coordinates of a point in space: in 2D the third one is zero. *)
  Definition coord (X : TV) (k : nat) : R := match dim, k with 2%nat, 2%nat => 0 | _, _ => vget X k end.
  (** Value and gradient of the level set at a point. *)
  Definition phi_at (o : Vdb R) (X : TV) : R := vd_phi o (coord X 0) (coord X 1) (coord X 2).
  Definition grad_at (o : Vdb R) (X : TV) : TV := vtab (vd_grad o (coord X 0) (coord X 1) (coord X 2)).
  (** Side of the bounding box. *)
  Definition extent (o : Vdb R) (k : nat) : R := vd_max o k - vd_min o k.
  Definition bounds_volume (o : Vdb R) : R := fold_right Rmult 1 (map (extent o) (seq 0 dim)).
  (** Centre of a cube of side [s] of the tiling of the bounding box that starts in its lower corner. *)
  Definition vdb_cell (o : Vdb R) (s : R) (x : TV) : Prop :=
    exists ijk : nat -> nat, forall k, (k < dim)%nat -> (INR (ijk k) + 1) * s <= extent o k /\ vget x k = vd_min o k + (INR (ijk k) + 1/2) * s.
End Words.

(** ** Proofs *)
Lemma world_spec : forall G, two_or_three G -> forall (X : TV) k, (k < 3)%nat -> world X k = coord X k.
Proof. intros G HG X k Hk. unfold world, coord. rewrite ?nofZ_R. destruct HG as [-> | ->]; destruct k as [|[|[|k]]]; try lia; reflexivity. Qed.
Lemma vdb_inside_spec : forall G, two_or_three G -> forall (o : Vdb R) X, vdb_inside o X = true <-> phi_at o X <= 0.
Proof.
  intros G HG o X. unfold vdb_inside, phi_at. rewrite !world_spec by (auto; lia). rewrite nofZ_R. numR.
  destruct (Rleb_spec (vd_phi o (coord X 0) (coord X 1) (coord X 2)) 0); split; intros; auto; try discriminate; lra.
Qed.
Lemma vdb_normal_spec : forall G, two_or_three G -> forall (o : Vdb R) X,
  vdb_normal o X = (if Req_EM_T (vnorm (grad_at o X)) 0 then vzero else vdivs (grad_at o X) (vnorm (grad_at o X))).
Proof.
  intros G HG o X. unfold vdb_normal, grad_at. rewrite !world_spec by (auto; lia). rewrite nofZ_R. numR.
  set (n := vnorm _). destruct (Req_EM_T n 0) as [E|E]; destruct (Reqb_spec n 0); cbn; auto; contradiction.
Qed.

(** A parameter set with the box of the level set, to reuse the facts about the rectangular box. *)
Definition boxed {G : Geo R} (p : Par R) (o : Vdb R) : Par R :=
  mkPar (spline p) (end_frame p) (use_pbc p) (change_pos p) (gravity_special p) (save_sim p) (save_grid p)
      (use_mibf p) (use_musl p) (grid_ref p) (gravity0 p) (min_dt p) (fps p) (cfl p) (cfl_elastic p)
      (flip_ratio p) (rho p) (gravity_time p) (extent o 0) (extent o 1) (extent o 2) (particle_mass p)
      (particle_volume p) (dx p) (elastic_model p) (plastic_model p) (hardening_law p)
      (use_pradhana p) (young p) (nu p) (stress_tolerance p) (xi p) (q_max p) (q_min p) (p_min p)
      (Mfric p) (q_cohesion p) (visc_exponent p) (visc_time p) (use_dl p) (beta p) (p0 p) (rho_s p)
      (grain_diameter p) (I_ref p) (mu_1 p) (mu_2 p) (q_prefac p) (objects p).
Lemma boxed_side : forall (G : Geo R) p o k, (k < 3)%nat -> side (boxed p o) k = extent o k.
Proof. intros G p o k Hk. destruct k as [|[|[|k]]]; try lia; reflexivity. Qed.
Lemma dim_le3 : forall G, two_or_three G -> (2 <= @dim R G <= 3)%nat.
Proof. intros G [-> | ->]; cbn; lia. Qed.

Lemma filter_le : forall X f (l : list X), (length (filter f l) <= length l)%nat.
Proof. intros X f l. induction l as [|a l IH]; cbn; [lia|]. destruct (f a); cbn; lia. Qed.
Lemma map_flat : forall X Y Z (g : Y -> Z) (f : X -> list Y) l, map g (flat_map f l) = flat_map (fun x => map g (f x)) l.
Proof. intros X Y Z g f l. induction l as [|a l IH]; cbn; auto. now rewrite map_app, IH. Qed.
Lemma flat_ext : forall X Y (f g : X -> list Y) l, (forall x, f x = g x) -> flat_map f l = flat_map g l.
Proof. intros X Y f g l H. induction l as [|a l IH]; cbn; auto. now rewrite H, IH. Qed.
Lemma vdb_points_shift : forall G, two_or_three G -> forall (p : Par R) o s,
  vdb_points s (vdb_min o) (vsub (vdb_max o) (vdb_min o)) = (pts <- regular_points (boxed p o) s ;; Ok (map (vadd (vdb_min o)) pts)).
Proof.
  intros G HG p o s. unfold vdb_points, regular_points. numR. destruct HG as [-> | ->].
  - assert (S0 : @vget R (Geo2 R) (vsub (vdb_max o) (vdb_min o)) 0 = Lx (boxed p o)) by reflexivity.
    assert (S1 : @vget R (Geo2 R) (vsub (vdb_max o) (vdb_min o)) 1 = Ly (boxed p o)) by reflexivity.
    rewrite S0, S1. destruct (to_int (Lx (boxed p o) / s)) as [nx| |]; cbn [bind]; auto. destruct (to_int (Ly (boxed p o) / s)) as [ny| |]; cbn [bind]; auto.
    cbn [dim Geo2]. cbn [bind]. f_equal. rewrite map_flat. apply flat_ext. intros i. rewrite map_map. apply map_ext. intros j. unfold cell. rewrite ?nofZ_R. numR. cbn. f_equal; field.
  - assert (S0 : @vget R (Geo3 R) (vsub (vdb_max o) (vdb_min o)) 0 = Lx (boxed p o)) by reflexivity.
    assert (S1 : @vget R (Geo3 R) (vsub (vdb_max o) (vdb_min o)) 1 = Ly (boxed p o)) by reflexivity.
    assert (S2 : @vget R (Geo3 R) (vsub (vdb_max o) (vdb_min o)) 2 = Lz (boxed p o)) by reflexivity.
    rewrite S0, S1, S2. destruct (to_int (Lx (boxed p o) / s)) as [nx| |]; cbn [bind]; auto. destruct (to_int (Ly (boxed p o) / s)) as [ny| |]; cbn [bind]; auto.
    cbn [dim Geo3]. destruct (to_int (Lz (boxed p o) / s)) as [nz| |]; cbn [bind]; auto.
    f_equal. rewrite map_flat. apply flat_ext. intros i. rewrite map_flat. apply flat_ext. intros j. rewrite map_map. apply map_ext. intros k. unfold cell. rewrite ?nofZ_R. numR. cbn. f_equal; field.
Qed.

Lemma shift_apart : forall G, two_or_three G -> forall m x y : TV, distance (vadd m x) (vadd m y) = distance x y.
Proof. intros G HG m x y. unfold distance. f_equal. apply Rsum_ext. intros k Hk. pose proof (geolaws G HG). apply in_seq in Hk. rewrite !vget_add by lia. f_equal. ring. Qed.

(** ** C56 *)
Theorem C56_inside : forall G, two_or_three G -> forall (o : Vdb R) (X : TV),
  inside (vdb_shape o) X = Ok true <-> phi_at o X <= 0.
Proof. intros G HG o X. unfold vdb_shape. cbn [inside]. rewrite <- (vdb_inside_spec G HG). split; [apply Ok_inj|congruence]. Qed.
Print Assumptions C56_inside.

(** A node in a VDB obstacle, where the level set has a gradient: the contact condition holds with the unit vector along the gradient, which points out of the object. *)
Theorem C56_contact : forall G, two_or_three G -> forall (p : Par R) (o : Vdb R) bc f dt nfr Xi vi,
  objects p = [mkObj (vdb_shape o) bc f] -> phi_at o (predicted dt Xi vi) <= 0 -> 0 < vnorm (grad_at o (predicted dt Xi vi)) ->
  exists n v', vdot n n = 1 /\ lscale (vnorm (grad_at o (predicted dt Xi vi))) n = grad_at o (predicted dt Xi vi) /\
    boundaryCollision p [] dt nfr Xi vi = Ok v' /\ contact bc n vzero v' /\ (bc = SlipFree -> 0 <= vdot vi n -> v' = vi).
Proof.
  intros G HG p o bc f dt nfr Xi vi EO Hin Hg. set (X := predicted dt Xi vi) in *. set (g := grad_at o X) in *.
  assert (En : normal (vdb_shape o) X = Ok (vdivs g (vnorm g))).
  { unfold vdb_shape. cbn [normal]. rewrite (vdb_normal_spec G HG). fold g. destruct (Req_EM_T (vnorm g) 0); [lra|reflexivity]. }
  pose proof (geolaws G HG) as GL.
  assert (U : vdot (vdivs g (vnorm g)) (vdivs g (vnorm g)) = 1 /\ lscale (vnorm g) (vdivs g (vnorm g)) = g).
  { split.
    - rewrite vdot_divs_l, vdot_divs_r. pose proof (vnorm_sq g) as Q. change (vsqnorm g) with (vdot g g) in Q. rewrite <- Q. field. lra.
    - apply vext. intros k Hk. rewrite vget_lscale, vget_divs by auto. field. lra. }
  destruct U as (U & L). exists (vdivs g (vnorm g)).
  destruct (C18_terrain G HG p (mkObj (vdb_shape o) bc f) dt nfr Xi vi (vdivs g (vnorm g)) EO) as (v' & B & C & S); auto.
  - apply C56_inside; auto.
  - exists v'. auto.
Qed.
Print Assumptions C56_contact.
(** Where the gradient vanishes the normal is zero: a slip obstacle then leaves the node's velocity as it is, a no-slip obstacle still stops the node. *)
Theorem C56_no_gradient : forall G, two_or_three G -> forall (p : Par R) (o : Vdb R) bc f dt nfr Xi vi,
  objects p = [mkObj (vdb_shape o) bc f] -> phi_at o (predicted dt Xi vi) <= 0 -> grad_at o (predicted dt Xi vi) = vzero ->
  boundaryCollision p [] dt nfr Xi vi = Ok (match bc with NoSlip => vzero | _ => vi end).
Proof.
  intros G HG p o bc f dt nfr Xi vi EO Hin Hg. set (X := predicted dt Xi vi) in *.
  pose proof (geolaws G HG) as GL.
  assert (En : normal (vdb_shape o) X = Ok vzero).
  { unfold vdb_shape. cbn [normal]. rewrite (vdb_normal_spec G HG), Hg. destruct (Req_EM_T (vnorm vzero) 0) as [|N]; [reflexivity|]. exfalso. apply N. apply vnorm_zero. }
  rewrite (single_object G) with (o := mkObj (vdb_shape o) bc f); auto; [|apply C56_inside; auto]. cbn [ob_bc ob_fric ob_shape]. fold X. rewrite En.
  destruct bc; cbn [collide bind]; try reflexivity; rewrite vdot_zero_r, nofZ_R; numR; (destruct (Rltb_spec 0 0); [lra|]); auto.
  f_equal. apply vext. intros k Hk. rewrite vget_sub, vget_lscale by auto. ring.
Qed.
Print Assumptions C56_no_gradient.

(** Meeting the hypotheses: a disc of radius 2 whose level set has the outward gradient, with a falling node on its axis; its centre has no gradient. *)
Definition disc : Vdb R := mkVdb (fun x y z => x * x + y * y - 4) (fun x y z k => match k with 0%nat => 2 * x | _ => 2 * y end) (fun _ => -2) (fun _ => 2).
Definition ep_vdb (bc : BC) : @Par R (Geo2 R) := ep_obj [mkObj (G := Geo2 R) (vdb_shape disc) bc (1/2)].
Example C56_ex : let vi : @TV R (Geo2 R) := mkV2 0 (-1) in let Xi : @TV R (Geo2 R) := mkV2 0 2 in
  phi_at disc (predicted (1/2) Xi vi) <= 0 /\ 0 < vnorm (grad_at disc (predicted (1/2) Xi vi)) /\
  (** straight above the disc, not inside *)
  inside (vdb_shape disc) (mkV2 (A := R) 0 3 : @TV R (Geo2 R)) = Ok false /\
  (** the gradient vanishes in the centre *)
  phi_at disc (mkV2 0 0 : @TV R (Geo2 R)) <= 0 /\ grad_at disc (mkV2 0 0 : @TV R (Geo2 R)) = vzero /\ objects (ep_vdb SlipFree) = [mkObj (G := Geo2 R) (vdb_shape disc) SlipFree (1/2)].
Proof.
  cbv zeta. unfold phi_at, grad_at, coord, predicted. cbn. rewrite ?nofZ_R. numR. repeat split; try lra.
  - apply sqrt_lt_R0. lra.
  - f_equal. unfold vdb_inside, world. cbn. rewrite ?nofZ_R. numR. match goal with |- Rleb ?a ?b = _ => destruct (Rleb_spec a b) end; [lra|reflexivity].
  - f_equal; field.
Qed.

(** ** C57 *)
Theorem C57_regular : forall G, two_or_three G -> forall (p : Par R) (o : Vdb R) ppc, 0 < dx p -> 0 < ppc ->
  let s := spacing p ppc in
  (forall k, (k < dim)%nat -> 0 <= extent o k < 2147483648 * s) ->
  exists sm, regularSampleVdb p o ppc = Ok sm /\ let P := sa_p (sv_s sm) in
    0 < s /\ ppc * pow_dim s = pow_dim (dx p) /\
    (** one particle at each cell centre of the bounding box that lies in the object *)
    (forall x, In x (p_x P) <-> vdb_cell o s x /\ phi_at o x <= 0) /\
    (forall i j x y, i <> j -> nth_error (p_x P) i = Some x -> nth_error (p_x P) j = Some y -> s <= distance x y) /\
    (forall x k, In x (p_x P) -> (k < dim)%nat -> vd_min o k < vget x k < vd_max o k) /\
    sa_dx (sv_s sm) = dx p /\ sa_vol (sv_s sm) = pow_dim s /\ sa_mass (sv_s sm) = rho p * pow_dim s /\
    pristine P (length (p_x P)) /\
    (** the domain becomes the bounding box *)
    (forall k, (k < dim)%nat -> vget (sv_L sm) k = extent o k) /\
    INR (length (p_x P)) * sa_vol (sv_s sm) <= bounds_volume o.
Proof.
  intros G HG p o ppc Hd Hp s Hb. destruct (spacing_pow G HG p ppc Hd Hp) as (Hs & Hpow). fold s in Hs, Hpow.
  pose proof (dim_le3 G HG) as D3. pose proof (geolaws G HG) as GL.
  assert (Hb' : forall k, (k < dim)%nat -> 0 <= side (boxed p o) k < 2147483648 * s) by (intros k Hk; rewrite boxed_side by lia; auto).
  destruct (points_spec G HG (boxed p o) s Hs Hb') as (pts & E & In_pts & ND & Len). destruct (volume_bounds G HG (boxed p o) s Hs Hb') as (V1 & _).
  rewrite <- Len in V1. fold (pow_dim s) in V1.
  assert (Ev : forall r, match dim with 2%nat => r * r | _ => r * r * r end = pow_dim r) by (clear -HG; unfold pow_dim; destruct HG as [-> | ->]; intros r; cbn; ring).
  unfold regularSampleVdb. fold s. rewrite (vdb_points_shift G HG p), E. cbn [bind]. numR. rewrite Ev. eexists. split; [reflexivity|]. cbv zeta. cbn [sv_s sv_L sa_p sa_dx sa_vol sa_mass].
  set (pts' := map (vadd (vdb_min o)) pts). destruct (place_pristine G HG (filter (vdb_inside o) pts')) as (Pr & ->).
  assert (Mg : forall k, (k < dim)%nat -> vget (vdb_min o) k = vd_min o k) by (intros; unfold vdb_min; now rewrite vget_tab).
  assert (Q0 : forall x, In x pts' <-> vdb_cell o s x).
  { intros x. unfold pts'. rewrite in_map_iff. split.
    - intros (y & <- & Hy). apply In_pts in Hy. destruct Hy as (ijk & H). exists ijk. intros k Hk. destruct (H k Hk) as (A & B). rewrite boxed_side in A by lia. split; auto. rewrite vget_add, Mg, B by auto. reflexivity.
    - intros (ijk & H). exists (vsub x (vdb_min o)). split; [apply vext; intros k Hk; rewrite vget_add, vget_sub by auto; ring|]. apply In_pts. exists ijk. intros k Hk. destruct (H k Hk) as (A & B). rewrite boxed_side by lia. split; auto. rewrite vget_sub, Mg, B by auto. ring. }
  assert (Q : forall x, In x (filter (vdb_inside o) pts') <-> vdb_cell o s x /\ phi_at o x <= 0) by (intros x; rewrite filter_In, Q0, (vdb_inside_spec G HG); reflexivity).
  assert (ND' : NoDup pts'). { unfold pts'. apply nodup_map; auto. intros x y H. apply vext. intros k Hk. apply (f_equal (fun v => vget v k)) in H. rewrite !vget_add in H by auto. lra. }
  split; [exact Hs|]. split; [exact Hpow|]. split; [exact Q|]. split; [|split; [|split; [reflexivity|split; [reflexivity|split; [reflexivity|split; [exact Pr|split]]]]]].
  - intros i j x y Nij Hx Hy. assert (Ix := nth_error_In _ _ Hx). assert (Iy := nth_error_In _ _ Hy). apply filter_In in Ix, Iy. destruct Ix as (Ix & _). destruct Iy as (Iy & _).
    unfold pts' in Ix, Iy. apply in_map_iff in Ix, Iy. destruct Ix as (x' & <- & Ix). destruct Iy as (y' & <- & Iy). rewrite shift_apart by auto. apply In_pts in Ix, Iy. apply (centres_apart G HG (boxed p o) s Hs); auto.
    intros ->. apply Nij. apply (proj1 (NoDup_nth_error (filter (vdb_inside o) pts')) (filter_nodup _ _ _ ND')); [apply nth_error_Some; congruence|congruence].
  - intros x k Hx Hk. apply Q in Hx. destruct Hx as ((ijk & H) & _). destruct (H k Hk) as (A & ->). unfold extent in A. pose proof (pos_INR (ijk k)). assert (0 < (INR (ijk k) + 1 / 2) * s) by (apply Rmult_lt_0_compat; lra). assert ((INR (ijk k) + 1 / 2) * s < (INR (ijk k) + 1) * s) by (apply Rmult_lt_compat_r; lra). split; lra.
  - intros k Hk. unfold extent. rewrite vget_sub by auto. unfold vdb_max. rewrite Mg, vget_tab by auto. reflexivity.
  - assert (EB : box_volume (boxed p o) = bounds_volume o) by (unfold box_volume, bounds_volume; f_equal; apply map_ext_in; intros k Hk; apply in_seq in Hk; apply boxed_side; lia).
    rewrite <- EB. apply Rle_trans with (2 := V1). apply Rmult_le_compat_r.
    + clearbody s. unfold pow_dim. clear -Hs HG. destruct HG as [-> | ->]; cbn; [apply Rlt_le, Rmult_lt_0_compat; [auto|lra]|]. assert (0 < s * 1) by lra. repeat apply Rmult_le_pos; lra.
    + apply le_INR. rewrite <- (map_length (vadd (vdb_min o)) pts). apply filter_le.
Qed.
Print Assumptions C57_regular.

Theorem C57_random : forall G, two_or_three G -> forall (p : Par R) (o : Vdb R) ppc (samples : list TV),
  0 < ppc -> samples <> [] -> (forall k, (k < dim)%nat -> 0 < extent o k) ->
  let sm := sampleVdb p o ppc samples in let P := sa_p (sv_s sm) in
  INR (length samples) * sa_vol (sv_s sm) = bounds_volume o /\
  0 < sa_dx (sv_s sm) /\ ppc * sa_vol (sv_s sm) = pow_dim (sa_dx (sv_s sm)) /\
  sa_mass (sv_s sm) = rho p * sa_vol (sv_s sm) /\
  (forall x, In x (p_x P) <-> In x samples /\ phi_at o x <= 0) /\
  pristine P (length (p_x P)) /\
  (forall k, (k < dim)%nat -> vget (sv_L sm) k = extent o k).
Proof.
  intros G HG p o ppc samples Hp Hn Hb. pose proof (dim_le3 G HG) as D3. pose proof (geolaws G HG) as GL.
  assert (Hb' : forall k, (k < dim)%nat -> 0 < side (boxed p o) k) by (intros k Hk; rewrite boxed_side by lia; auto).
  destruct (C49_random_sampling G HG (boxed p o) ppc 0 samples Hp Hn Hb') as (A & B & C & D & _).
  assert (EB : box_volume (boxed p o) = bounds_volume o) by (unfold box_volume, bounds_volume; f_equal; apply map_ext_in; intros k Hk; apply in_seq in Hk; apply boxed_side; lia).
  assert (Eg : forall k, (k < dim)%nat -> vget (vsub (vdb_max o) (vdb_min o)) k = extent o k).
  { intros k Hk. unfold extent. rewrite vget_sub by auto. unfold vdb_max, vdb_min. rewrite !vget_tab by auto. reflexivity. }
  assert (Es : sv_s (sampleVdb p o ppc samples) = mkSampled (sa_dx (sample (boxed p o) ppc 0 samples)) (sa_vol (sample (boxed p o) ppc 0 samples)) (sa_mass (sample (boxed p o) ppc 0 samples)) (place (filter (vdb_inside o) samples))).
  { unfold sampleVdb, sample. cbn [sv_s sa_dx sa_vol sa_mass]. rewrite (Eg 0%nat), (Eg 1%nat) by lia. clear -HG Eg. destruct HG as [-> | ->]; cbn [dim Geo2 Geo3]; [reflexivity|]. rewrite (Eg 2%nat) by (cbn; lia). reflexivity. }
  cbv zeta. rewrite Es. cbn [sa_p sa_dx sa_vol sa_mass]. rewrite <- EB. split; [exact A|]. split; [exact B|]. split; [exact C|]. split; [exact D|].
  destruct (place_pristine G HG (filter (vdb_inside o) samples)) as (Pr & ->). split; [|split; [exact Pr|exact Eg]].
  intros x. rewrite filter_In, (vdb_inside_spec G HG). reflexivity.
Qed.
Print Assumptions C57_random.

(** Meeting the hypotheses: four particles per unit cell in the bounding square of the disc; one of them sits at (1/4, 1/4), none at (7/4, 7/4). *)
Example C57_ex : let p := @ex_std (Geo2 R) Deg2 1 in
  spacing p 4 = 1/2 /\ (forall k, (k < 2)%nat -> 0 <= extent disc k < 2147483648 * spacing p 4) /\
  exists sm, regularSampleVdb p disc 4 = Ok sm /\ sa_vol (sv_s sm) = 1/4 /\ In (mkV2 (1/4) (1/4)) (p_x (sa_p (sv_s sm))) /\ ~ In (mkV2 (7/4) (7/4)) (p_x (sa_p (sv_s sm))).
Proof.
  cbv zeta. assert (S : @spacing R _ (Geo2 R) (ex_std Deg2 1) 4 = 1/2).
  { unfold spacing. cbn. numR. replace 4 with (2 * 2) by ring. rewrite sqrt_square by lra. lra. }
  assert (B : forall k, (k < 2)%nat -> 0 <= extent disc k < 2147483648 * @spacing R _ (Geo2 R) (ex_std Deg2 1) 4) by (intros k Hk; rewrite S; unfold extent; cbn; lra).
  split; [exact S|]. split; [exact B|].
  destruct (C57_regular (Geo2 R) (or_introl eq_refl) (ex_std Deg2 1) disc 4) as (sm & E & H); [cbn; lra|lra|exact B|].
  cbv zeta in H. rewrite S in H. destruct H as (_ & _ & Q & _ & _ & _ & V & _). exists sm. split; [exact E|]. split; [rewrite V; unfold pow_dim; cbn; lra|]. split.
  - apply Q. split; [|unfold phi_at, coord; cbn; lra]. exists (fun _ => 4%nat). intros k Hk. unfold extent. cbn in *. split; [lra|]. destruct k as [|[|k]]; [lra|lra|lia].
  - intros H. apply Q in H. destruct H as (_ & H). unfold phi_at, coord in H. cbn in H. lra.
Qed.

(** ** C58 *)

Section Init.
Context {A : Type} {NA : Num A} {G : Geo A}.
Variable svd : TM -> TM * TV * TM.
Variable uabs : A -> A.
Lemma step_save : forall p b af sc s, advanceStep svd uabs af (set_save p b) sc s = advanceStep svd uabs af p sc s.
Proof. intros p b af sc s. destruct p. reflexivity. Qed.

Lemma loop_save : forall fuel af p b sch k s,
  (r <- sim_loop svd uabs fuel af (set_save p b) sch k s ;; Ok (fst r)) = (r <- sim_loop svd uabs fuel af p sch k s ;; Ok (fst r)).
Proof.
  induction fuel as [|fuel IH]; intros af p b sch k s; cbn [sim_loop]; change (end_frame (set_save p b)) with (end_frame p); destruct (s_frame s <? end_frame p)%Z; auto.
  rewrite step_save. destruct (advanceStep svd uabs af p (sch k) s) as [s1| |]; cbn [bind]; auto. destruct (s_exit s1); auto.
  change (tick (set_save p b) s1) with (tick p s1). change (at_end (set_save p b) (tick p s1)) with (at_end p (tick p s1)). destruct (at_end p (tick p s1)); auto.
  specialize (IH af p b sch (S k) (tick p s1)). destruct (sim_loop svd uabs fuel af (set_save p b) sch (S k) (tick p s1)) as [[[? ?] ?]| |], (sim_loop svd uabs fuel af p sch (S k) (tick p s1)) as [[[? ?] ?]| |]; cbn in *; congruence.
Qed.
Lemma loop_quiet : forall fuel af p sch k s r, sim_loop svd uabs fuel af (set_save p false) sch k s = Ok r -> snd r = [].
Proof.
  induction fuel as [|fuel IH]; intros af p sch k s r; cbn [sim_loop]; change (end_frame (set_save p false)) with (end_frame p); destruct (s_frame s <? end_frame p)%Z; intros H; try discriminate; try (apply Ok_inj in H; subst r; reflexivity).
  destruct (advanceStep svd uabs af (set_save p false) (sch k) s) as [s1| |]; cbn [bind] in H; try discriminate. destruct (s_exit s1); [apply Ok_inj in H; subst r; reflexivity|].
  assert (Q : forall s, save_frame (set_save p false) s = []) by reflexivity. rewrite !Q in H.
  destruct (at_end (set_save p false) (tick (set_save p false) s1)).
  - apply Ok_inj in H. subst r. cbn. now destruct (_ =? _)%Z.
  - destruct (sim_loop svd uabs fuel af (set_save p false) sch (S k) _) as [r'| |] eqn:E; cbn [bind] in H; try discriminate. apply Ok_inj in H. subst r. cbn. apply IH in E. rewrite E. now destruct (_ =? _)%Z.
Qed.
End Init.

(** The simulation object after calls of initialize(); each entry: the save argument, and whether the input file could be copied. *)
Definition after (calls : list (bool * bool)) : Ini := fold_left (fun i c => initialize (fst c) (snd c) i) calls new_sim.
(** A call that wanted to save and could not set up its directory. *)
Definition failed (c : bool * bool) : Prop := c = (true, false).

Lemma after_init : forall calls i, i_init i = true -> i_init (fold_left (fun i c => initialize (fst c) (snd c) i) calls i) = true.
Proof. induction calls as [|c l IH]; intros i H; cbn; auto. Qed.
Lemma after_exit : forall calls i, i_exit (fold_left (fun i c => initialize (fst c) (snd c) i) calls i) = i_exit i || existsb (fun c => fst c && negb (snd c)) calls.
Proof. induction calls as [|c l IH]; intros i; cbn; [now rewrite orb_false_r|]. rewrite IH. cbn. now rewrite orb_assoc. Qed.
Lemma after_ok : forall calls, (forall c, In c calls -> ~ failed c) -> i_exit (after calls) = false.
Proof.
  intros calls H. unfold after. rewrite after_exit. cbn. destruct (existsb _ calls) eqn:E; auto. apply existsb_exists in E. destruct E as ([a b] & Hi & E). exfalso. apply (H _ Hi). cbn in E. unfold failed. destruct a, b; try discriminate; reflexivity.
Qed.

(** Without initialize() simulate() does nothing. *)
Theorem C58_not_initialised : forall (A : Type) (NA : Num A) (G : Geo A) svd uabs fuel af (p : Par A) sch s, s_exit s = false ->
  run_sim svd uabs fuel af p (after []) sch s = Ok (NotInitialised, s, []).
Proof. intros A NA G svd uabs fuel af p sch s E. unfold run_sim, simulate, with_exit. cbn. destruct s; cbn in *. now subst. Qed.
Print Assumptions C58_not_initialised.
(** After a failed set-up of the output directory simulate() does nothing, even if a later initialize() succeeds. *)
Theorem C58_failed_setup : forall (A : Type) (NA : Num A) (G : Geo A) svd uabs fuel af (p : Par A) calls sch s, (exists c, In c calls /\ failed c) ->
  exists stop, stop <> Finished /\ run_sim svd uabs fuel af p (after calls) sch s = Ok (stop, with_exit s true, []).
Proof.
  intros A NA G svd uabs fuel af p calls sch s (c & Hc & F).
  assert (X : i_exit (after calls) = true) by (unfold after; rewrite after_exit; cbn; apply existsb_exists; exists c; split; [exact Hc|now rewrite F]).
  assert (I : i_init (after calls) = true) by (unfold after; destruct calls as [|c0 l]; [destruct Hc|cbn; now apply after_init]).
  unfold run_sim, simulate. rewrite X, I. cbn [negb]. replace (s_exit (with_exit s true)) with true by (cbn; now rewrite orb_true_r). destruct (model_ok _); cbn [negb]; [exists SetupFailed|exists BadModel]; split; try discriminate; reflexivity.
Qed.
Print Assumptions C58_failed_setup.
(** A simulation that saves and one that does not run through the same states and stop alike; the one that does not save writes nothing. *)
Theorem C58_saving_only_observes : forall (A : Type) (NA : Num A) (G : Geo A) svd uabs fuel af (p : Par A) calls calls' sch s stop s',
  (forall c, In c (calls ++ [(false, false)]) -> ~ failed c) -> (forall c, In c (calls' ++ [(true, true)]) -> ~ failed c) ->
  (exists ev, run_sim svd uabs fuel af p (after (calls' ++ [(true, true)])) sch s = Ok (stop, s', ev)) <->
  run_sim svd uabs fuel af p (after (calls ++ [(false, false)])) sch s = Ok (stop, s', []).
Proof.
  intros A NA G svd uabs fuel af p calls calls' sch s stop s' F F'.
  assert (H : forall b b' l, (forall c, In c (l ++ [(b, b')]) -> ~ failed c) -> after (l ++ [(b, b')]) = mkIni b true false).
  { intros b b' l Q. pose proof (after_ok _ Q) as X. unfold after in *. rewrite fold_left_app in *. cbn in *. unfold initialize in *. cbn in *. now rewrite X. }
  rewrite (H _ _ _ F), (H _ _ _ F'). unfold run_sim, simulate. cbn [i_save i_init i_exit negb]. change (model_ok (set_save p true)) with (model_ok p). change (model_ok (set_save p false)) with (model_ok p).
  destruct (model_ok p); cbn [negb]; [|split; [intros (ev & E); apply Ok_inj in E; congruence|intros E; exists []; exact E]].
  destruct (s_exit (with_exit s false)); [split; [intros (ev & E); apply Ok_inj in E; congruence|intros E; exists []; exact E]|]. change (sim_start (set_save p true) (with_exit s false)) with (sim_start p (with_exit s false)). change (sim_start (set_save p false) (with_exit s false)) with (sim_start p (with_exit s false)).
  set (s1 := sim_start p (with_exit s false)). pose proof (loop_save svd uabs fuel af p true sch 0 s1) as L1. pose proof (loop_save svd uabs fuel af p false sch 0 s1) as L2. pose proof (loop_quiet svd uabs fuel af p sch 0 s1) as L3.
  cbn [save_sim set_save].
  destruct (sim_loop svd uabs fuel af (set_save p true) sch 0 s1) as [[[a b] c]| |], (sim_loop svd uabs fuel af (set_save p false) sch 0 s1) as [[[a' b'] c']| |], (sim_loop svd uabs fuel af p sch 0 s1) as [[[a2 b2] c2]| |]; cbn [bind fst snd] in *; try discriminate.
  - specialize (L3 _ eq_refl). cbn in L3. subst c'. apply Ok_inj in L1, L2. assert (a = a2 /\ b = b2 /\ a' = a2 /\ b' = b2) by (repeat split; congruence). destruct H0 as (-> & -> & -> & ->). split.
    + intros (ev & E). apply Ok_inj in E. assert (a2 = stop /\ b2 = s') by (split; congruence). destruct H0 as (-> & ->). now destruct stop.
    + intros E. apply Ok_inj in E. assert (a2 = stop /\ b2 = s') by (split; congruence). destruct H0 as (-> & ->). eexists. reflexivity.
  - split; [intros (ev & E); discriminate|discriminate].
  - split; [intros (ev & E); discriminate|discriminate].
Qed.
Print Assumptions C58_saving_only_observes.
Example C58_ex : after [(true, false); (false, true)] = mkIni false true true /\ after [(false, false)] = mkIni false true false /\
  (forall c, In c ([] ++ [(false, false)]) -> ~ failed c) /\ (forall c, In c ([] ++ [(true, true)]) -> ~ failed c) /\ failed (true, false).
Proof. repeat split; cbn; unfold failed; intros c [<-|[]]; discriminate. Qed.
