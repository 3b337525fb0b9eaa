(** * PropGridF: C85, the first grid and the stencils in it, in double precision. *)
From Coq Require Import ZArith Reals Lra Lia List Bool Floats.SpecFloat.
From Flocq Require Import Core.
From Verif Require Import Num NumF NumR Tools Lin Types Remesh Transfer Spec SpecF SpecGridF ResProofs PlasticModels LinProofs GridProofs RemeshProofs MpmProofs FloatBase FloatGrid FloatKernel ExSimF.
Import ListNotations.
Local Open Scope R_scope.

Section Stencil.
  Variable L : Libm.
  Hint Extern 0 (Num F) => exact (NumF L) : typeclass_instances.
  Context {G : Geo F}.
  Variable p : Par F.
  Variable M : R.
  Variable xs : list TV.
  Hypothesis Hc : cloud_okF L M p xs.

  Lemma axis_stencil : forall k a x, (k < dim)%nat -> init_ax p M xs k a -> In x xs ->
    exists b, base_p2g p a (vget x k) = Ok b /\ base_g2p p a (vget x k) = Ok b /\ (0 <= b)%Z /\ (b + 3 < Z.of_nat (length (ax_co a)))%Z /\
      IZR b + 1 - 1/8 <= (fval (vget x k) - fval (ax_c a)) / fval (dx p) <= IZR b + 2 + 1/8.
  Proof.
    intros k a x Hk I Hx. destruct (cl_xs L M p xs Hc x k Hx Hk) as (Fx & Bx). pose proof (cl_M L M p xs Hc) as HM. pose proof (cl_dx L M p xs Hc) as Hd. pose proof (h_pos p Hd) as P.
    destruct (ia_c _ _ _ _ _ I) as (Fc & C0). destruct (ia_co _ _ _ _ _ I 0%nat _ C0) as (_ & Bc & _). destruct (ia_x _ _ _ _ _ I x Hx) as (X1 & X2).
    destruct (base_F L p M HM Hd a (vget x k) Fx Fc) as (b & B1 & B2 & B3 & B4); auto; [apply Rabs_le_inv in Bx; apply Rabs_le; nra|].
    assert (e3 : eps * (8 * (M + 6)) <= 1/8) by (unfold eps; lra). exists b. do 3 (split; [assumption|]). split; [|lra]. rewrite INR_IZR_INZ in X2.
    assert (b + 3 < Z.of_nat (length (ax_co a)))%Z by (apply lt_IZR; rewrite plus_IZR; lra). lia.
  Qed.
  Lemma axis_items : forall (a : Axis F) x b, (0 <= b)%Z -> (b + 3 < Z.of_nat (length (ax_co a)))%Z ->
    exists l, ax_items p a x b = Ok l /\ length l = 4%nat /\ forall it, In it l -> (b <= ai_i it <= b + 3)%Z.
  Proof.
    intros a x b H0 H1. unfold ax_items.
    assert (K : forall d, (0 <= d <= 3)%Z -> exists it, ax_item p a x (b + d) = Ok it /\ ai_i it = (b + d)%Z).
    { intros d Hd. unfold ax_item. destruct (rd_some (ax_co a) (b + d)) as (y & Ey); [lia|]. rewrite Ey. cbn [bind]. eexists. split; reflexivity. }
    destruct (K 0%Z) as (i0 & E0 & A0); [lia|]. destruct (K 1%Z) as (i1 & E1 & A1); [lia|]. destruct (K 2%Z) as (i2 & E2 & A2); [lia|]. destruct (K 3%Z) as (i3 & E3 & A3); [lia|].
    cbn [mapM]. rewrite E0. cbn [bind]. rewrite E1. cbn [bind]. rewrite E2. cbn [bind]. rewrite E3. cbn [bind]. eexists. split; [reflexivity|]. split; [reflexivity|].
    intros it [<-|[<-|[<-|[<-|[]]]]]; lia.
  Qed.
End Stencil.

(** ** Weights *)
(** Half the sum of rounding errors of one axis. *)
Definition werr (M : R) : R := eps * (17 * ((M + 8) * (M + 8))).
Section Weights.
  Variable L : Libm.
  Hint Extern 0 (Num F) => exact (NumF L) : typeclass_instances.
  Context {G : Geo F}.
  Variable p : Par F.
  Variable M : R.
  Variable xs : list TV.
  Hypothesis Hc : cloud_okF L M p xs.
  Hypothesis Hs : spline p = Deg2.

  Lemma axis_weights : forall k a x b l, (k < dim)%nat -> init_ax p M xs k a -> In x xs -> (0 <= b)%Z -> (b + 3 < Z.of_nat (length (ax_co a)))%Z ->
    IZR b + 1 - 1/8 <= (fval (vget x k) - fval (ax_c a)) / fval (dx p) <= IZR b + 2 + 1/8 ->
    ax_items p a (vget x k) b = Ok l ->
    Forall (fun it => ffin (ai_w it) /\ 0 <= fval (ai_w it) <= 3/4) l /\ Rabs (Rsum (fun it => fval (ai_w it)) l - 1) <= werr M.
  Proof.
    intros k a x b l Hk I Hx H0 H1 Hb H. destruct (cl_xs L M p xs Hc x k Hx Hk) as (Fx & Bx). pose proof (cl_M L M p xs Hc) as HM. pose proof (cl_dx L M p xs Hc) as Hd. pose proof (h_pos p Hd) as P. pose proof eps_pos as E0.
    set (h := fval (dx p)) in *. set (y := (fval (vget x k) - fval (ax_c a)) / h - IZR b).
    assert (K : forall d it, (0 <= d <= 3)%Z -> ax_item p a (vget x k) (b + d) = Ok it ->
      ffin (ai_w it) /\ 0 <= fval (ai_w it) <= 3/4 /\ Rabs (fval (ai_w it) - N2 (y - IZR d)) <= eps * (4 * ((M + 8) * (M + 8)) + 2)).
    { intros d it Hdd Hi. unfold ax_item in Hi. apply bind_Ok in Hi. destruct Hi as (xi & Er & Hi). apply Ok_inj in Hi. subst it. cbn [ai_w]. rewrite Hs. cbn [N].
      apply rd_Ok in Er. destruct Er as (_ & Er). destruct (ia_co _ _ _ _ _ I _ _ Er) as (Fi & Bi & Di). fold h in Bi, Di.
      destruct (scaled L p M HM Hd (vget x k) xi Fx Fi) as (Fu & Eu); [fold h; apply Rabs_le_inv in Bx; apply Rabs_le; nra|exact Bi|]. fold h in Eu. cbv zeta in Fu, Eu. set (u := nmul (nsub (vget x k) xi) (one_over_dx p)) in *.
      destruct (N2_F L u Fu) as (A1 & A2 & A3). split; [exact A1|]. split; [exact A2|].
      rewrite INR_IZR_INZ, Z2Nat.id, plus_IZR in Di by lia.
      assert (Hn : IZR b + IZR d <= 4 * M + 25).
      { rewrite <- plus_IZR. pose proof (ia_n _ _ _ _ _ I) as In. rewrite INR_IZR_INZ in In. eapply Rle_trans; [|exact In]. apply IZR_le. lia. }
      assert (Hn0 : 0 <= IZR b + IZR d) by (rewrite <- plus_IZR; apply IZR_le; lia).
      set (j := IZR b + IZR d) in *.
      assert (Eq : Rabs (fval u - (y - IZR d)) <= eps * (4 * ((M + 8) * (M + 8)))).
      { replace (fval u - (y - IZR d)) with ((fval u - (fval (vget x k) - fval xi) / h) + (- (fval xi - (fval (ax_c a) + j * h))) / h) by (unfold y, j; field; lra).
        eapply Rle_trans; [apply Rabs_triang|]. unfold Rdiv at 2. rewrite Rabs_mult, Rabs_Ropp, (Rabs_pos_eq (/ h)) by (apply Rlt_le, Rinv_0_lt_compat; auto).
        assert (Rabs (fval xi - (fval (ax_c a) + j * h)) * / h <= (4 * M + 25) * (eps * (M + 6))).
        { apply Rmult_le_reg_r with h; auto. rewrite Rmult_assoc, Rinv_l, Rmult_1_r by lra. eapply Rle_trans; [exact Di|].
          replace ((4 * M + 25) * (eps * (M + 6)) * h) with ((4 * M + 25) * (eps * ((M + 6) * h))) by ring. apply Rmult_le_compat_r; [|exact Hn]. repeat apply Rmult_le_pos; lra. }
        assert (eps * (8 * (M + 6)) + (4 * M + 25) * (eps * (M + 6)) <= eps * (4 * ((M + 8) * (M + 8)))) by nra. lra. }
      pose proof (N2_lip (fval u) (y - IZR d)) as Lp. replace (fval (@N2 F (NumF L) u) - N2 (y - IZR d)) with ((fval (@N2 F (NumF L) u) - N2 (fval u)) + (N2 (fval u) - N2 (y - IZR d))) by ring.
      eapply Rle_trans; [apply Rabs_triang|]. lra. }
    unfold ax_items in H. cbn [mapM] in H.
    apply bind_Ok in H. destruct H as (i0 & R0 & H). apply bind_Ok in H. destruct H as (q0 & H & Q). apply Ok_inj in Q. subst l.
    apply bind_Ok in H. destruct H as (i1 & R1 & H). apply bind_Ok in H. destruct H as (q1 & H & Q). apply Ok_inj in Q. subst q0.
    apply bind_Ok in H. destruct H as (i2 & R2 & H). apply bind_Ok in H. destruct H as (q2 & H & Q). apply Ok_inj in Q. subst q1.
    apply bind_Ok in H. destruct H as (i3 & R3 & H). apply bind_Ok in H. destruct H as (q3 & H & Q). apply Ok_inj in Q. subst q2. apply Ok_inj in H. subst q3.
    destruct (K 0%Z i0 ltac:(lia) R0) as (A0 & B0 & C0). destruct (K 1%Z i1 ltac:(lia) R1) as (A1 & B1 & C1). destruct (K 2%Z i2 ltac:(lia) R2) as (A2 & B2 & C2). destruct (K 3%Z i3 ltac:(lia) R3) as (A3 & B3 & C3).
    split; [repeat (apply Forall_cons; [split; auto; fail|]); apply Forall_nil|]. cbn [Rsum]. pose proof (N2_sum4 y ltac:(unfold y; lra)) as S. rewrite Rminus_0_r in C0.
    apply Rabs_le_inv in C0, C1, C2, C3. assert (4 * (eps * (4 * ((M + 8) * (M + 8)) + 2)) <= werr M) by (unfold werr; nra). apply Rabs_le. lra.
  Qed.
End Weights.

Lemma axn_len : forall a : Axis F, (Z.of_nat (length (ax_co a)) <= 4294967295)%Z -> ax_n a = Z.of_nat (length (ax_co a)).
Proof. intros a H. unfold ax_n, wrapu. apply Z.mod_small. lia. Qed.

Definition axes_okF {G : Geo F} (M : R) (p : Par F) (xs : list TV) (axes : list (Axis F)) : Prop :=
  length axes = dim /\ forall k a, nth_error axes k = Some a -> (k < dim)%nat /\ init_ax p M xs k a.
Lemma axes_cover : forall (L : Libm) (G : Geo F), two_or_threeF G ->
  forall (M : R) (p : Par F) (xs : list TV) axes, cloud_okF L M p xs -> axes_okF M p xs axes -> (prodlen axes <= 4294967295)%Z ->
  forall x, In x xs -> stencil_in_arraysF L p axes x.
Proof.
  intros L G HG M p xs axes Hc (Ln & A) Hp x Hx.
  unfold stencil_in_arraysF.
  destruct HG as [-> | ->].
  - destruct axes as [|ax [|ay [|az r]]] eqn:Ea; try discriminate. cbn [prodlen fold_right map] in Hp.
    destruct (A 0%nat ax eq_refl) as (K0 & I0). destruct (A 1%nat ay eq_refl) as (K1 & I1).
    destruct (axis_stencil L p M xs Hc 0 ax x K0 I0 Hx) as (b0 & P0 & Q0 & Z0 & N0 & _). destruct (axis_stencil L p M xs Hc 1 ay x K1 I1 Hx) as (b1 & P1 & Q1 & Z1 & N1 & _).
    destruct (axis_items L p ax (vget x 0) b0 Z0 N0) as (l0 & E0 & L0 & J0). destruct (axis_items L p ay (vget x 1) b1 Z1 N1) as (l1 & E1 & L1 & J1).
    set (nx := Z.of_nat (length (ax_co ax))) in *. set (ny := Z.of_nat (length (ax_co ay))) in *.
    assert (Hp' : (nx * ny <= 4294967295)%Z) by (revert Hp; unfold prodlen; cbn; unfold nx, ny; lia).
    assert (Ex : ax_n ax = nx) by (apply axn_len; nia). assert (Ey : ax_n ay = ny) by (apply axn_len; nia).
    assert (Lr : Z.of_nat (length (resizeGrid (NA := NumF L) [ax; ay])) = (nx * ny)%Z).
    { unfold resizeGrid. rewrite repeat_length. unfold grid_nodes. cbn [map]. rewrite Ex, Ey. unfold wrapu. rewrite Z.mod_small by nia. rewrite Z2Nat.id; nia. }
    exists (flat_map (fun a => map (item2 (NA := NumF L) (ax_n ay) a) l1) l0). cbn [stencil].
    rewrite P0, P1, Q0, Q1. cbn [bind]. rewrite E0, E1. cbn [bind]. split; [reflexivity|]. split; [reflexivity|]. split.
    + destruct l0 as [|? [|? [|? [|? [|]]]]]; try discriminate. cbn [flat_map]. rewrite !app_length, !map_length, L1. reflexivity.
    + intros it Hi. apply in_flat_map in Hi. destruct Hi as (i & Hi0 & Hi). apply in_map_iff in Hi. destruct Hi as (j & <- & Hi1). cbn [item2 it_idx].
      specialize (J0 _ Hi0). specialize (J1 _ Hi1). rewrite Ey, Lr. destruct (ind2_val nx ny (ai_i i) (ai_i j)) as (-> & V); try lia.
  - destruct axes as [|ax [|ay [|az [|aw r]]]] eqn:Ea; try discriminate.
    destruct (A 0%nat ax eq_refl) as (K0 & I0). destruct (A 1%nat ay eq_refl) as (K1 & I1). destruct (A 2%nat az eq_refl) as (K2 & I2).
    destruct (axis_stencil L p M xs Hc 0 ax x K0 I0 Hx) as (b0 & P0 & Q0 & Z0 & N0 & _). destruct (axis_stencil L p M xs Hc 1 ay x K1 I1 Hx) as (b1 & P1 & Q1 & Z1 & N1 & _). destruct (axis_stencil L p M xs Hc 2 az x K2 I2 Hx) as (b2 & P2 & Q2 & Z2 & N2 & _).
    destruct (axis_items L p ax (vget x 0) b0 Z0 N0) as (l0 & E0 & L0 & J0). destruct (axis_items L p ay (vget x 1) b1 Z1 N1) as (l1 & E1 & L1 & J1). destruct (axis_items L p az (vget x 2) b2 Z2 N2) as (l2 & E2 & L2 & J2).
    set (nx := Z.of_nat (length (ax_co ax))) in *. set (ny := Z.of_nat (length (ax_co ay))) in *. set (nz := Z.of_nat (length (ax_co az))) in *.
    assert (Hp' : (nx * ny * nz <= 4294967295)%Z) by (revert Hp; unfold prodlen; cbn; unfold nx, ny, nz; lia).
    assert (Hxy : (nx * ny <= nx * ny * nz)%Z) by nia.
    assert (Ex : ax_n ax = nx) by (apply axn_len; fold nx; nia). assert (Ey : ax_n ay = ny) by (apply axn_len; fold ny; nia). assert (Ez : ax_n az = nz) by (apply axn_len; fold nz; nia).
    assert (Lr : Z.of_nat (length (resizeGrid (NA := NumF L) (G := Geo3 F) [ax; ay; az])) = (nx * ny * nz)%Z).
    { unfold resizeGrid. rewrite repeat_length. unfold grid_nodes. cbn [map]. rewrite Ex, Ey, Ez. unfold wrapu. rewrite (Z.mod_small (nx * ny)) by nia. rewrite Z.mod_small by nia. rewrite Z2Nat.id; nia. }
    exists (flat_map (fun a => flat_map (fun b => map (item3 (NA := NumF L) (G := Geo3 F) (ax_n ay) (ax_n az) a b) l2) l1) l0). cbn [stencil].
    rewrite P0, P1, P2, Q0, Q1, Q2. cbn [bind]. rewrite E0, E1, E2. cbn [bind]. split; [reflexivity|]. split; [reflexivity|]. split.
    + destruct l0 as [|? [|? [|? [|? [|]]]]]; try discriminate. destruct l1 as [|? [|? [|? [|? [|]]]]]; try discriminate. cbn [flat_map]. rewrite !app_length, !map_length, L2. reflexivity.
    + intros it Hi. apply in_flat_map in Hi. destruct Hi as (i & Hi0 & Hi). apply in_flat_map in Hi. destruct Hi as (j & Hi1 & Hi). apply in_map_iff in Hi. destruct Hi as (q & <- & Hi2). cbn [item3 it_idx].
      specialize (J0 _ Hi0). specialize (J1 _ Hi1). specialize (J2 _ Hi2). rewrite Ey, Ez, Lr. destruct (ind3_val nx ny nz (ai_i i) (ai_i j) (ai_i q)) as (-> & V); try lia.
Qed.
Lemma init_axes : forall (L : Libm) (G : Geo F) af M (p : Par F) (xs : list TV) am, cloud_okF L M p xs -> remeshFixedInit (NA := NumF L) af p 2 xs = Ok am -> axes_okF M p xs (map fst am).
Proof.
  intros L G af M p xs am Hc H. split.
  - unfold remeshFixedInit in H. rewrite map_length, (mapM_length _ _ _ H). apply seq_length.
  - intros k a Ha. rewrite nth_error_map in Ha. destruct (nth_error am k) as [[a' m]|] eqn:E; [|discriminate]. injection Ha as ->.
    unfold remeshFixedInit in H. pose proof (mapM_length _ _ _ H) as Ln. rewrite seq_length in Ln.
    assert (Hk : (k < dim)%nat) by (rewrite <- Ln; apply nth_error_Some; congruence). split; auto.
    eapply mapM_seq_nth in H; eauto. eapply init_axis_F in H; eauto. apply H.
Qed.

(** The first grid covers every particle: for every cloud within a million cells of the origin, the grid laid
    out in double precision contains, for every particle, the whole stencil that both transfers visit. *)
Theorem C85_initial_grid_covers : forall (L : Libm) (G : Geo F), two_or_threeF G ->
  forall (af : nat) (M : R) (p : Par F) (xs : list TV) am, let NF := NumF L in
  cloud_okF L M p xs -> remeshFixedInit af p 2 xs = Ok am -> (prodlen (map fst am) <= 4294967295)%Z ->
  forall x, In x xs -> stencil_in_arraysF L p (map fst am) x.
Proof.
  intros L G HG af M p xs am NF Hc H Hp x Hx. eapply axes_cover; eauto. eapply init_axes; eauto.
Qed.

(** The loop that lays out the grid lines ends, although it adds up rounded numbers. *)
Theorem C85_initial_grid_exists : forall (L : Libm) (G : Geo F) (M : R) (p : Par F) (xs : list TV), let NF := NumF L in
  cloud_okF L M p xs -> xs <> [] -> exists n0, forall af, (n0 <= af)%nat -> exists am, remeshFixedInit af p 2 xs = Ok am.
Proof.
  intros L G M p xs NF Hc Hne. unfold remeshFixedInit.
  assert (K : forall l, (forall k, In k l -> (k < dim)%nat) -> exists n0, forall af, (n0 <= af)%nat -> exists am, mapM (remeshInit_axis af p 2 xs) l = Ok am).
  { induction l as [|k l IH]; intros Hl.
    - exists 0%nat. intros af _. cbn. eauto.
    - destruct IH as (n1 & H1); [intros; apply Hl; right; auto|]. destruct (init_axis_ends L p M xs Hc k (Hl k (or_introl eq_refl)) Hne) as (n2 & H2).
      exists (Nat.max n1 n2). intros af Haf. destruct (H1 af ltac:(lia)) as (r & Er). destruct (H2 af ltac:(lia)) as (y & Ey). cbn [mapM]. unfold NF. rewrite Ey. cbn [bind]. unfold NF in Er. rewrite Er. cbn [bind]. eauto. }
  apply K. intros k Hk. apply in_seq in Hk. lia.
Qed.

(** ** Weights *)
Lemma Rsum_close : forall X (f g : X -> R) e l, (forall x, In x l -> Rabs (f x - g x) <= e) -> Rabs (Rsum f l - Rsum g l) <= INR (length l) * e.
Proof.
  intros X f g e l. induction l as [|x l IH]; intros H; cbn [Rsum length].
  - rewrite Rminus_diag_eq, Rabs_R0 by auto. cbn. lra.
  - rewrite S_INR. specialize (IH (fun y Hy => H y (or_intror Hy))). specialize (H x (or_introl eq_refl)).
    replace (f x + Rsum f l - (g x + Rsum g l)) with ((f x - g x) + (Rsum f l - Rsum g l)) by ring. eapply Rle_trans; [apply Rabs_triang|]. lra.
Qed.
Lemma werr_bound : forall M, 1 <= M <= 1048576 -> 1377 * eps <= werr M <= 1/200.
Proof. intros M H. unfold werr, eps. split; nra. Qed.

Lemma axes_weights : forall (L : Libm) (G : Geo F), two_or_threeF G ->
  forall (M : R) (p : Par F) (xs : list TV) axes x items, cloud_okF L M p xs -> axes_okF M p xs axes -> spline p = Deg2 -> In x xs ->
  stencil (NA := NumF L) (base_p2g (NA := NumF L)) p axes x = Ok items ->
  (forall it, In it items -> ffin (it_w it) /\ 0 <= fval (it_w it) <= 1) /\
  Rabs (Rsum (fun it => fval (it_w it)) items - 1) <= 68 * bpow radix2 (-52) * (M + 8) ^ 2.
Proof.
  intros L G HG M p xs axes x items Hc (Ln & A) Hs Hx Hst. rewrite <- eps_bpow. pose proof eps_pos as E0.
  replace (68 * eps * (M + 8) ^ 2) with (4 * werr M) by (unfold werr; ring). pose proof (werr_bound M (cl_M L M p xs Hc)) as W.
  assert (B : forall k a b l, nth_error axes k = Some a -> base_p2g (NA := NumF L) p a (vget x k) = Ok b -> ax_items (NA := NumF L) p a (vget x k) b = Ok l ->
    length l = 4%nat /\ (forall it, In it l -> ffin (ai_w it) /\ 0 <= fval (ai_w it) <= 1) /\ Rabs (Rsum (fun it => fval (ai_w it)) l - 1) <= werr M).
  { intros k a b l Ha Eb El. destruct (A k a Ha) as (Hk & I). destruct (axis_stencil L p M xs Hc k a x Hk I Hx) as (b' & P0 & _ & Z0 & N0 & Q0).
    assert (b' = b) as -> by (rewrite P0 in Eb; now apply Ok_inj in Eb).
    destruct (axis_items L p a (vget x k) b Z0 N0) as (l' & E0' & L0 & _). assert (l' = l) as -> by (rewrite E0' in El; now apply Ok_inj in El).
    destruct (axis_weights L p M xs Hc Hs k a x b l Hk I Hx Z0 N0 Q0 El) as (F1 & F2). split; auto. split; auto.
    intros it Hi. apply (proj1 (Forall_forall _ _) F1) in Hi. destruct Hi as (? & ?). split; auto. lra. }
  destruct HG as [-> | ->].
  - destruct axes as [|ax [|ay [|az r]]] eqn:Ea; try discriminate. cbn [stencil] in Hst.
    apply bind_Ok in Hst. destruct Hst as (b0 & P0 & Hst). apply bind_Ok in Hst. destruct Hst as (b1 & P1 & Hst).
    apply bind_Ok in Hst. destruct Hst as (l0 & E0' & Hst). apply bind_Ok in Hst. destruct Hst as (l1 & E1 & Hst). apply Ok_inj in Hst. subst items.
    destruct (B 0%nat ax b0 l0 eq_refl P0 E0') as (L0 & W0 & S0). destruct (B 1%nat ay b1 l1 eq_refl P1 E1) as (L1 & W1 & S1). split.
    + intros it Hi. apply in_flat_map in Hi. destruct Hi as (i & Hi0 & Hi). apply in_map_iff in Hi. destruct Hi as (j & <- & Hi1). cbn [item2 it_w].
      destruct (W0 _ Hi0) as (F0 & B0). destruct (W1 _ Hi1) as (F1 & B1). destruct (mul_unit _ _ F0 F1 B0 B1) as (Q1 & Q2 & _). auto.
    + rewrite Rsum_flat_map. rewrite (Rsum_ext _ _ _ (fun i _ => Rsum_map _ _ _ _ _)). cbn [item2 it_w].
      assert (C : Rabs (Rsum (fun i => Rsum (fun j => fval (@nmul F (NumF L) (ai_w i) (ai_w j))) l1) l0 - Rsum (fun i => Rsum (fun j => fval (ai_w i) * fval (ai_w j)) l1) l0) <= INR (length l0) * (INR (length l1) * eps)).
      { apply Rsum_close. intros i Hi. apply Rsum_close. intros j Hj. destruct (W0 _ Hi) as (F0 & B0). destruct (W1 _ Hj) as (F1 & B1). apply (mul_unit _ _ F0 F1 B0 B1). }
      rewrite (Rsum_ext (fun i => Rsum (fun j => fval (ai_w i) * fval (ai_w j)) l1) _ _ (fun i _ => Rsum_scal _ _ _)), Rsum_scalr, L0, L1 in C. cbn [INR] in C.
      apply Rabs_le_inv in C, S0, S1. set (s0 := Rsum (fun it => fval (ai_w it)) l0) in *. set (s1 := Rsum (fun it => fval (ai_w it)) l1) in *. set (t := Rsum _ _) in *.
      assert (- (2 * werr M + werr M / 200) <= s0 * s1 - 1 <= 2 * werr M + werr M / 200).
      { replace (s0 * s1 - 1) with ((s0 - 1) + (s1 - 1) + (s0 - 1) * (s1 - 1)) by ring. assert (- (werr M / 200) <= (s0 - 1) * (s1 - 1) <= werr M / 200) by (split; nra). lra. }
      apply Rabs_le. lra.
  - destruct axes as [|ax [|ay [|az [|aw r]]]] eqn:Ea; try discriminate. cbn [stencil] in Hst.
    apply bind_Ok in Hst. destruct Hst as (b0 & P0 & Hst). apply bind_Ok in Hst. destruct Hst as (b1 & P1 & Hst). apply bind_Ok in Hst. destruct Hst as (b2 & P2 & Hst).
    apply bind_Ok in Hst. destruct Hst as (l0 & E0' & Hst). apply bind_Ok in Hst. destruct Hst as (l1 & E1 & Hst). apply bind_Ok in Hst. destruct Hst as (l2 & E2 & Hst). apply Ok_inj in Hst. subst items.
    destruct (B 0%nat ax b0 l0 eq_refl P0 E0') as (L0 & W0 & S0). destruct (B 1%nat ay b1 l1 eq_refl P1 E1) as (L1 & W1 & S1). destruct (B 2%nat az b2 l2 eq_refl P2 E2) as (L2 & W2 & S2).
    assert (T : forall i j q, In i l0 -> In j l1 -> In q l2 -> let w := @nmul F (NumF L) (@nmul F (NumF L) (ai_w i) (ai_w j)) (ai_w q) in ffin w /\ 0 <= fval w <= 1 /\ Rabs (fval w - fval (ai_w i) * fval (ai_w j) * fval (ai_w q)) <= 2 * eps).
    { intros i j q Hi Hj Hq. cbv zeta. destruct (W0 _ Hi) as (F0 & B0). destruct (W1 _ Hj) as (F1 & B1). destruct (W2 _ Hq) as (F2 & B2). cbn [nmul NumF].
      destruct (mul_unit _ _ F0 F1 B0 B1) as (Q1 & Q2 & Q3). destruct (mul_unit _ _ Q1 F2 Q2 B2) as (Q4 & Q5 & Q6). split; auto. split; auto.
      apply Rabs_le_inv in Q3, Q6. apply Rabs_le. set (w01 := fval (SFmul fprec femax (ai_w i) (ai_w j))) in *. set (c := fval (ai_w q)) in *. assert (- eps <= (w01 - fval (ai_w i) * fval (ai_w j)) * c <= eps) by (split; nra). lra. }
    split.
    + intros it Hi. apply in_flat_map in Hi. destruct Hi as (i & Hi0 & Hi). apply in_flat_map in Hi. destruct Hi as (j & Hi1 & Hi). apply in_map_iff in Hi. destruct Hi as (q & <- & Hi2). cbn [item3 it_w].
      destruct (T i j q Hi0 Hi1 Hi2) as (Q1 & Q2 & _). auto.
    + rewrite Rsum_flat_map. rewrite (Rsum_ext _ _ _ (fun i _ => Rsum_flat_map _ _ _ _ _)). rewrite (Rsum_ext _ _ _ (fun i _ => Rsum_ext _ _ _ (fun j _ => Rsum_map _ _ _ _ _))). cbn [item3 it_w].
      set (t := Rsum _ _).
      assert (C : Rabs (t - Rsum (fun i => Rsum (fun j => Rsum (fun q => fval (ai_w i) * fval (ai_w j) * fval (ai_w q)) l2) l1) l0) <= INR (length l0) * (INR (length l1) * (INR (length l2) * (2 * eps)))).
      { apply Rsum_close. intros i Hi. apply Rsum_close. intros j Hj. apply Rsum_close. intros q Hq. now apply T. }
      rewrite (Rsum_prod3 _ _ _ (fun i => fval (ai_w i)) (fun i => fval (ai_w i)) (fun i => fval (ai_w i))), L0, L1, L2 in C. cbn [INR] in C.
      apply Rabs_le_inv in C, S0, S1, S2. set (s0 := Rsum (fun it => fval (ai_w it)) l0) in *. set (s1 := Rsum (fun it => fval (ai_w it)) l1) in *. set (s2 := Rsum (fun it => fval (ai_w it)) l2) in *.
      assert (U : - (2 * werr M + werr M / 200) <= s0 * s1 - 1 <= 2 * werr M + werr M / 200).
      { replace (s0 * s1 - 1) with ((s0 - 1) + (s1 - 1) + (s0 - 1) * (s1 - 1)) by ring. assert (- (werr M / 200) <= (s0 - 1) * (s1 - 1) <= werr M / 200) by (split; nra). lra. }
      assert (- (3 * werr M + werr M / 40) <= s0 * s1 * s2 - 1 <= 3 * werr M + werr M / 40).
      { replace (s0 * s1 * s2 - 1) with ((s0 * s1 - 1) + (s2 - 1) + (s0 * s1 - 1) * (s2 - 1)) by ring. set (v := s0 * s1 - 1) in *. assert (- (werr M / 60) <= v * (s2 - 1) <= werr M / 60) by (split; nra). lra. }
      apply Rabs_le. lra.
Qed.
(** The weights of a particle (quadratic splines) are between 0 and 1, and they add up to one up to a rounding error
    that grows with the square of the number of cells; with 100 cells this error is below 2e-10. *)
Theorem C85_weights : forall (L : Libm) (G : Geo F), two_or_threeF G ->
  forall (af : nat) (M : R) (p : Par F) (xs : list TV) am x items, let NF := NumF L in
  cloud_okF L M p xs -> spline p = Deg2 -> remeshFixedInit af p 2 xs = Ok am -> In x xs ->
  stencil base_p2g p (map fst am) x = Ok items ->
  (forall it, In it items -> ffin (it_w it) /\ 0 <= fval (it_w it) <= 1) /\
  Rabs (Rsum (fun it => fval (it_w it)) items - 1) <= 68 * bpow radix2 (-52) * (M + 8) ^ 2.
Proof.
  intros L G HG af M p xs am x items NF Hc Hs H Hx Hst. eapply axes_weights; eauto. eapply init_axes; eauto.
Qed.

(** The quadratic kernel itself: a finite argument gives a value between 0 and 3/4 that is within 2^-51 of the exact one. *)
Theorem C85_kernel : forall (L : Libm) (u : F), ffin u -> let v := @N F (NumF L) Deg2 u in
  ffin v /\ 0 <= fval v <= 3/4 /\ Rabs (fval v - N Deg2 (fval u)) <= bpow radix2 (-51).
Proof.
  intros L u Fu. cbv zeta. cbn [N]. destruct (N2_F L u Fu) as (A1 & A2 & A3). split; auto. split; auto. eapply Rle_trans; [exact A3|]. unfold eps. cbn. lra.
Qed.

Lemma ok_intro : forall X (r : res X) (t : X -> bool), match r with Ok x => t x | _ => false end = true -> exists x, r = Ok x /\ t x = true.
Proof. intros X [x| |] t H; try discriminate. eauto. Qed.
(** ** A case that meets the hypotheses: spacing 0.1, particles at (0.3, 0.7) and (-0.2, 0.1). *)
Section Ex.
  Local Instance nfx : Num F := NumF ExSimF.libm0.
  Local Existing Instance Geo2.
  Definition gridF_par (h : F) : @Par F (Geo2 F) :=
    {| spline := Deg2; end_frame := 3; use_pbc := false; change_pos := false; gravity_special := false;
       save_sim := true; save_grid := true; use_mibf := false; use_musl := false;
       grid_ref := vtab (fun _ => nofZ 20000000000); gravity0 := mkV2 (nofZ 0) (nofQ (-981) 100);
       min_dt := nofQ 1 1000000000000; fps := nofZ 10; cfl := nofQ 1 2; cfl_elastic := nofQ 1 2;
       flip_ratio := nofQ (-95) 100; rho := nofZ 1000; gravity_time := nofZ 0; Lx := nofZ 1; Ly := nofZ 1; Lz := nofZ 1;
       particle_mass := nofZ 1; particle_volume := nofZ 1; dx := h;
       elastic_model := Hencky; plastic_model := NoPlasticity; hardening_law := ExpoImpl;
       use_pradhana := true; young := nofZ 10000; nu := nofQ 3 10; stress_tolerance := nofQ 1 100000; xi := nofZ 0;
       q_max := nofZ 100; q_min := nofZ 100; p_min := nofZ (-100000000000000000000);
       Mfric := nofZ 1; q_cohesion := nofZ 0; visc_exponent := nofZ 1; visc_time := nofZ 0; use_dl := false;
       beta := nofZ 0; p0 := nofZ 1000; rho_s := nofZ 2500; grain_diameter := nofQ 1 1000; I_ref := nofQ 279 1000;
       mu_1 := nofQ 38 100; mu_2 := nofQ 64 100; q_prefac := ndiv (nofZ 1) (nsqrt (nofZ 2)); objects := [] |}.
  Definition gridF_p : @Par F (Geo2 F) := gridF_par (nofQ 1 10).
  Definition gridF_xs : list (@TV F (Geo2 F)) := [mkV2 (nofQ 3 10) (nofQ 7 10); mkV2 (nofQ (-2) 10) (nofQ 1 10)].
  Lemma gridF_cloud : cloud_okF ExSimF.libm0 8 gridF_p gridF_xs.
  Proof.
    assert (E : dx gridF_p = S754_finite false 7205759403792794 (-56)) by (vm_compute; reflexivity).
    assert (B56 : bpow radix2 (-56) = / 72057594037927936) by (cbn; lra).
    assert (V : 99/1000 <= fval (dx gridF_p) <= 101/1000) by (rewrite E, fval_fin, B56; cbn; lra).
    constructor.
    - lra.
    - split; [rewrite E; split; reflexivity|]. split.
      + apply Rle_trans with (bpow radix2 (-4)); [apply bpow_le; lia|]. change (/ 16 <= fval (dx gridF_p)). lra.
      + apply Rle_trans with (bpow radix2 0); [|apply bpow_le; lia]. change (fval (dx gridF_p) <= 1). lra.
    - assert (K : forall n d m e s, fofQ n d = S754_finite s m e -> valid_binary 53 1024 (S754_finite s m e) = true -> Rabs (IZR (sfZ s m) * bpow radix2 e) <= 75/100 -> ffin (nofQ n d) /\ Rabs (fval (nofQ n d)) <= 8 * fval (dx gridF_p)).
      { intros n d m e s En Vb Bn. cbn [nofQ nfx NumF]. rewrite En. split; [split; auto|]. rewrite fval_fin. lra. }
      assert (B53 : bpow radix2 (-53) = / 9007199254740992) by (cbn; lra). assert (B54 : bpow radix2 (-54) = / 18014398509481984) by (cbn; lra). assert (B55 : bpow radix2 (-55) = / 36028797018963968) by (cbn; lra).
      intros x k [<-|[<-|[]]] Hk; destruct k as [|[|k]]; try (cbn in Hk; lia); cbn [vget Geo2 v2_0 v2_1]; eapply K; try (vm_compute; reflexivity); cbn [sfZ]; rewrite ?B53, ?B54, ?B55, ?B56; apply Rabs_le; lra.
    - intros C. vm_compute in C. discriminate.
  Qed.
  Example C85_ex : exists am, remeshFixedInit 20 gridF_p 2 gridF_xs = Ok am /\ (prodlen (map fst am) <= 4294967295)%Z /\
    forall x, In x gridF_xs -> exists items, stencil base_p2g gridF_p (map fst am) x = Ok items /\ stencil base_g2p gridF_p (map fst am) x = Ok items /\
      Rabs (Rsum (fun it => fval (it_w it)) items - 1) <= 1/100000000000.
  Proof.
    assert (K : exists am, remeshFixedInit 20 gridF_p 2 gridF_xs = Ok am /\ (prodlen (map fst am) <=? 4294967295)%Z = true) by (apply ok_intro; vm_compute; reflexivity).
    destruct K as (am & E & K).
    apply Z.leb_le in K. exists am. split; [exact E|]. split; [exact K|]. intros x Hx.
    destruct (C85_initial_grid_covers ExSimF.libm0 (Geo2 F) (or_introl eq_refl) 20 8 gridF_p gridF_xs am gridF_cloud E K x Hx) as (items & S1 & S2 & _ & _).
    exists items. split; [exact S1|]. split; [exact S2|].
    eapply Rle_trans; [exact (proj2 (C85_weights ExSimF.libm0 (Geo2 F) (or_introl eq_refl) 20 8 gridF_p gridF_xs am x items gridF_cloud eq_refl E Hx S1))|].
    rewrite <- eps_bpow. unfold eps. lra.
  Qed.
End Ex.
Print Assumptions C85_initial_grid_covers.
Print Assumptions C85_initial_grid_exists.
Print Assumptions C85_weights.
Print Assumptions C85_kernel.
