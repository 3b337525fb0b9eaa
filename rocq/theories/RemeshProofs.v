(** * RemeshProofs: coverage and lattice properties of the adaptive and periodic grids. *)
From Coq Require Import Reals ZArith Lra Lia List Bool Permutation.
From Flocq Require Import Core.Raux.
From Verif Require Import Num NumR Tools Lin Types Remesh Objects Transfer LinProofs ResProofs
  KernelProofs GridProofs StencilProofs Spec.
Import ListNotations.
Local Open Scope R_scope.

Section Cov.
  Context {G : Geo R} {GL : GeoLaws G}.
  Variable p : Par R.
  Hypothesis Hdx : 0 < dx p.

  Lemma covered_iff : forall a x, covered p a x <->
    ax_c a + dx p <= x /\ x < ax_c a + (INR (lat_n a) - 2) * dx p.
  Proof.
    intros a x. unfold covered, cell_of. pose proof (Zfloor_bounds ((x - ax_c a) / dx p)) as F.
    set (z := Zfloor ((x - ax_c a) / dx p)) in *.
    assert (E : x - ax_c a = (x - ax_c a) / dx p * dx p) by (field; lra).
    set (u := (x - ax_c a) / dx p) in *.
    rewrite INR_IZR_INZ. set (n := Z.of_nat (lat_n a)). split.
    - intros [H1 H2]. apply IZR_le in H1. assert (H3 : (z <= n - 3)%Z) by lia. apply IZR_le in H3.
      rewrite minus_IZR in H3. split; nra.
    - intros [H1 H2]. assert (1 <= u) by nra. assert (u < IZR n - 2) by nra.
      assert (0 < IZR z) by lra. assert (IZR z < IZR n - 2) by lra.
      rewrite <- minus_IZR in H4. apply lt_IZR in H3. apply lt_IZR in H4. lia.
  Qed.

  (** The *_init members of one axis are those of a cloud [xs] (with reference point). *)
  Definition mesh_of (xs : list TV) (k : nat) (m : MeshAx R) : Prop :=
    (forall x, In x xs -> ma_min m <= vget x k <= ma_max m) /\ ma_min m <= ma_max m /\
    ma_low m = ma_min m - 2 * dx p /\ ma_high m = ma_max m + 2 * dx p.

  Lemma remeshInit_axis_spec : forall af xs k a m, remeshInit_axis af p 2 xs k = Ok (a, m) ->
    mesh_of xs k m /\ lattice (dx p) a /\ ax_c a = ma_low m /\
    ma_high m + dx p <= ax_c a + INR (lat_n a) * dx p /\
    ax_c a + (INR (lat_n a) - 1) * dx p < ma_high m + dx p.
  Proof.
    intros af xs k a m H. unfold remeshInit_axis in H. invb.
    apply max_elem_spec in E. apply min_elem_spec in E0. destruct E as [Ei Em]. destruct E0 as [Ei' Em'].
    destruct (ref_adjust p k x0 x) as [mn mx] eqn:R. invb.
    apply mk_axis_spec in E; auto. destruct E as (E1 & E2 & E3 & E4). rewrite nofZ_R in *. numR.
    assert (B : mn <= x0 /\ x <= mx).
    { unfold ref_adjust in R. rewrite nofZ_R in R. numR.
      destruct (Rltb_spec (vget (grid_ref p) 0) 10000000000);
        [|injection R as <- <-; lra].
      destruct (Rltb_spec (vget (grid_ref p) k) x0); [injection R as <- <-; lra|].
      destruct (Rltb_spec x (vget (grid_ref p) k)); injection R as <- <-; lra. }
    assert (C : forall y, In y xs -> x0 <= vget y k <= x).
    { intros y Hy. split; [apply Em'|apply Em]; apply in_map_iff; eauto. }
    assert (Hle : x0 <= x) by (apply Em'; auto).
    unfold mesh_of; cbn [ma_min ma_max ma_low ma_high].
    split; [split; [|split; [|split]]|split; [|split; [|split]]]; try tauto; try lra.
    intros y Hy. apply C in Hy. lra.
  Qed.

  Lemma init_covers_axis : forall af xs k a m x, remeshInit_axis af p 2 xs k = Ok (a, m) -> In x xs ->
    covered p a (vget x k).
  Proof.
    intros af xs k a m x H Hx. apply remeshInit_axis_spec in H.
    destruct H as ((M1 & M2 & M3 & M4) & L & C & S1 & S2). apply M1 in Hx.
    apply covered_iff. split; lra.
  Qed.

  Lemma mapM_seq_nth : forall Y (f : nat -> res Y) n l k y, mapM f (seq 0 n) = Ok l -> nth_error l k = Some y -> f k = Ok y.
  Proof.
    intros Y f n l k y H E. assert (L := mapM_length _ _ _ H). rewrite seq_length in L.
    apply mapM_Ok in H.
    assert (K : (k < n)%nat) by (rewrite <- L; apply nth_error_Some; congruence).
    assert (S : nth_error (seq 0 n) k = Some k).
    { rewrite <- (map_id (seq 0 n)), nth_error_seq_map. destruct (Nat.ltb_spec k n); auto; lia. }
    destruct (Forall2_nth_error _ _ _ _ _ H _ _ S) as (y' & E' & F). congruence.
  Qed.

  Theorem init_grid_ok : forall af xs am, remeshFixedInit af p 2 xs = Ok am ->
    (prodlen (map fst am) <= 4294967295)%Z -> GridOk p (map fst am).
  Proof.
    intros af xs am H F. unfold remeshFixedInit in H. split; auto.
    - rewrite map_length, (mapM_length _ _ _ H), seq_length. auto.
    - apply Forall_forall. intros a Ha. apply in_map_iff in Ha. destruct Ha as ([a' m] & <- & Hin).
      apply mapM_In with (y := (a', m)) in H; auto. destruct H as (k & _ & E). apply remeshInit_axis_spec in E. apply E.
  Qed.
  Theorem init_covers : forall af xs am x, remeshFixedInit af p 2 xs = Ok am -> In x xs ->
    Covered p (map fst am) x.
  Proof.
    intros af xs am x H Hx k a Ha. rewrite nth_error_map in Ha.
    destruct (nth_error am k) as [[a' m]|] eqn:E; simpl in Ha; [|discriminate]. injection Ha as ->.
    unfold remeshFixedInit in H. eapply mapM_seq_nth in H; eauto.
    eapply init_covers_axis; eauto.
  Qed.
  Lemma mapM_terminates : forall X Y (f : nat -> X -> res Y) l,
    (forall x, In x l -> exists n0, forall n, (n0 <= n)%nat -> exists y, f n x = Ok y) ->
    exists n0, forall n, (n0 <= n)%nat -> exists ys, mapM (f n) l = Ok ys.
  Proof.
    induction l; intros H; [exists 0%nat; simpl; eauto|].
    destruct (H a) as [n1 H1]; [now left|]. destruct IHl as [n2 H2]; [intros; apply H; now right|].
    exists (max n1 n2). intros n Hn. destruct (H1 n) as [y Ey]; [lia|]. destruct (H2 n) as [ys Eys]; [lia|].
    simpl. rewrite Ey, Eys. simpl. eauto.
  Qed.
  Theorem init_terminates : forall xs, xs <> [] ->
    exists af0, forall af, (af0 <= af)%nat -> exists am, remeshFixedInit af p 2 xs = Ok am.
  Proof.
    intros xs Hx. unfold remeshFixedInit.
    apply (mapM_terminates _ _ (fun af k => remeshInit_axis af p 2 xs k)). intros k _.
    unfold remeshInit_axis.
    destruct (max_elem_ex (map (fun v => vget v k) xs)) as [mx Emx]; [destruct xs; simpl; congruence|].
    destruct (min_elem_ex (map (fun v => vget v k) xs)) as [mn Emn]; [destruct xs; simpl; congruence|].
    rewrite Emx, Emn. cbn [bind]. destruct (ref_adjust p k mn mx) as [mn' mx'] eqn:Rf.
    assert (mn' <= mx').
    { assert (mn <= mx). { apply max_elem_spec in Emx. apply min_elem_spec in Emn. apply Emn, Emx. }
      unfold ref_adjust in Rf. rewrite nofZ_R in Rf. numR.
      destruct (Rltb_spec (vget (grid_ref p) 0) 10000000000); [|injection Rf as <- <-; lra].
      destruct (Rltb_spec (vget (grid_ref p) k) mn); [injection Rf as <- <-; lra|].
      destruct (Rltb_spec mx (vget (grid_ref p) k)); injection Rf as <- <-; lra. }
    destruct (mk_axis_terminates (mn' - dx p * 2) (mx' + dx p * 2 + dx p) (dx p) Hdx) as [f0 Hf]; [lra|].
    exists f0. intros n Hn. destruct (Hf n Hn) as [a Ea]. rewrite !nofZ_R. numR. rewrite Ea. simpl. eauto.
  Qed.

  (** ** Later grids *)

  (** The cloud's expansion [d] beyond the initial extent is not within 1e-8*dx cells above a
      whole number n >= 1 of cells. *)
  Definition safe_shift (d : R) : Prop :=
    forall n : Z, (1 <= n)%Z -> ~ (IZR n <= d / dx p < IZR n + 1 / 100000000 * dx p).

  Lemma shift_factor_spec : forall d f, 0 <= d -> shift_factor p d = Ok f ->
    (0 <= f)%Z /\ IZR f * dx p <= d /\ (safe_shift d -> d < (IZR f + 1) * dx p).
  Proof.
    intros d f Hd H. unfold shift_factor in H. rewrite cmax_R, nofZ_R in H. numR.
    apply to_uint_inv in H. rewrite Ztrunc_IZR in H. destruct H as [H Hf].
    set (e := d / dx p) in *. assert (E : d = e * dx p) by (unfold e; field; lra).
    assert (0 <= e) by (unfold e; apply Rmult_le_pos; [lra|left; apply Rinv_0_lt_compat; lra]).
    assert (W : 0 < 1 / 100000000 * dx p) by (apply Rmult_lt_0_compat; lra).
    set (w := 1 / 100000000 * dx p) in *.
    pose proof (Zfloor_bounds (Rmax 0 (e - w))) as B. rewrite H in B.
    assert (M : Rmax 0 (e - w) <= e) by (apply Rmax_lub; lra).
    split; [lia|]. split; [nra|]. intros S.
    assert (e < IZR f + 1); [|nra].
    destruct (Rlt_dec e (IZR f + 1)) as [|N]; auto. exfalso.
    assert (N' : IZR f + 1 <= e) by lra.
    (* floor e >= f+1, and floor e > e - w *)
    pose proof (Zfloor_bounds e) as Be.
    assert (Hz : (f + 1 <= Zfloor e)%Z) by (apply Zfloor_lub; rewrite plus_IZR; lra).
    apply (S (Zfloor e)); [lia|]. split; [tauto|].
    apply IZR_le in Hz. rewrite plus_IZR in Hz. fold e. fold w.
    assert (e - w <= Rmax 0 (e - w)) by apply Rmax_r. lra.
  Qed.

  Lemma cont_axis_spec : forall af xs k m a mx mn,
    remeshCont_axis af p xs m k = Ok a ->
    max_elem (map (fun v => vget v k) xs) = Ok mx -> min_elem (map (fun v => vget v k) xs) = Ok mn ->
    ma_low m = ma_min m - 2 * dx p -> ma_high m = ma_max m + 2 * dx p ->
    lattice (dx p) a /\ (exists z, ax_c a = ma_low m + IZR z * dx p) /\
    ((mn <= ma_min m -> safe_shift (ma_min m - mn)) ->
     (ma_max m <= mx -> safe_shift (mx - ma_max m)) ->
     forall x, In x xs -> covered p a (vget x k)).
  Proof.
    intros af xs k m a mx mn H Hmx Hmn Hlo Hhi. unfold remeshCont_axis in H. rewrite Hmx, Hmn in H. cbn [bind] in H. invb.
    apply mk_axis_spec in H; auto. destruct H as (C & L & S1 & S2). numR.
    unfold cont_high in E. unfold cont_low in E0. numR.
    apply max_elem_spec in Hmx. apply min_elem_spec in Hmn. destruct Hmx as [Mi Mx]. destruct Hmn as [mi Mn].
    assert (HI : ma_max m <= mx -> safe_shift (mx - ma_max m) -> mx + 1 * dx p < x \/ mx + 2 * dx p <= x).
    { intros h s. destruct (Rltb_spec mx (ma_max m)); [lra|]. invb.
      apply shift_factor_spec in E1; [|lra]. destruct E1 as (_ & _ & U). specialize (U s).
      rewrite ?nofZ_R in *; numR. left. lra. }
    assert (HI' : mx < ma_max m -> mx + 2 * dx p <= x).
    { intros h. destruct (Rltb_spec mx (ma_max m)); [|lra]. invb.
      apply shift_factor_spec in E1; [|lra]. destruct E1 as (_ & U & _). rewrite ?nofZ_R in *; numR. lra. }
    assert (LO : mn <= ma_min m -> safe_shift (ma_min m - mn) -> x0 + dx p <= mn).
    { intros h s. destruct (Rltb_spec (ma_min m) mn); [lra|]. invb.
      apply shift_factor_spec in E1; [|lra]. destruct E1 as (_ & _ & U). specialize (U s).
      rewrite ?nofZ_R in *; numR. lra. }
    assert (LO' : ma_min m < mn -> x0 + dx p <= mn).
    { intros h. destruct (Rltb_spec (ma_min m) mn); [|lra]. invb.
      apply shift_factor_spec in E1; [|lra]. destruct E1 as (_ & U & _). rewrite ?nofZ_R in *; numR. lra. }
    assert (Hz : exists z, x0 = ma_low m + IZR z * dx p).
    { destruct (Rltb (ma_min m) mn); invb; rewrite ?nofZ_R in *; numR.
      - exists x1. lra.
      - exists (- x1)%Z. rewrite opp_IZR. lra. }
    split; auto. split; [rewrite C; auto|].
    intros Slo Shi y Hy.
    assert (mn <= vget y k <= mx) by (split; [apply Mn|apply Mx]; apply in_map_iff; eauto).
    assert (A1 : x0 + dx p <= mn) by (destruct (Rle_dec mn (ma_min m)); [auto|apply LO'; lra]).
    assert (A2 : mx + dx p < x).
    { destruct (Rle_dec (ma_max m) mx) as [h|h]; [destruct (HI h (Shi h)); lra|].
      assert (mx + 2 * dx p <= x) by (apply HI'; lra). lra. }
    apply covered_iff. rewrite C. split; lra.
  Qed.

  Lemma combine_seq_nth : forall X (l : list X) n k a, length l = n -> nth_error l k = Some a ->
    nth_error (combine l (seq 0 n)) k = Some (a, k).
  Proof.
    intros X l n k a H E. subst n.
    assert (Q : forall (l : list X) s k a, nth_error l k = Some a -> nth_error (combine l (seq s (length l))) k = Some (a, (s + k)%nat)).
    { clear. induction l; intros s [|k] b E; simpl in *; try discriminate.
      - injection E as ->. now rewrite Nat.add_0_r.
      - rewrite (IHl (S s) k b E). do 2 f_equal. lia. }
    now rewrite (Q l 0%nat k a E).
  Qed.

  Definition mesh_ok (xs0 : list TV) (ms : list (MeshAx R)) : Prop :=
    length ms = dim /\ forall k m, nth_error ms k = Some m -> mesh_of xs0 k m.
  Lemma init_mesh_ok : forall af xs am, remeshFixedInit af p 2 xs = Ok am -> mesh_ok xs (map snd am).
  Proof.
    intros af xs am H. unfold remeshFixedInit in H. split.
    - rewrite map_length, (mapM_length _ _ _ H), seq_length. auto.
    - intros k m E. rewrite nth_error_map in E. destruct (nth_error am k) as [[a' m']|] eqn:E'; simpl in E; [|discriminate].
      injection E as ->. eapply mapM_seq_nth in H; eauto. apply remeshInit_axis_spec in H. apply H.
  Qed.

  Lemma cont_nth : forall af xs ms axes k a, length ms = dim -> remeshFixedCont af p xs ms = Ok axes ->
    nth_error axes k = Some a -> exists m, nth_error ms k = Some m /\ remeshCont_axis af p xs m k = Ok a.
  Proof.
    intros af xs ms axes k a L H E. unfold remeshFixedCont in H. assert (HL := mapM_length _ _ _ H).
    rewrite combine_length, seq_length, L, Nat.min_id in HL.
    assert (K : (k < length ms)%nat) by (rewrite L, <- HL; apply nth_error_Some; congruence).
    apply nth_error_Some in K. destruct (nth_error ms k) as [m|] eqn:Em; [|congruence].
    exists m. split; auto. apply mapM_Ok in H.
    destruct (Forall2_nth_error _ _ _ _ _ H k (m, k)) as (a' & E' & F).
    - rewrite <- L. apply combine_seq_nth; auto.
    - simpl in F. congruence.
  Qed.
  Theorem cont_grid_ok : forall af xs0 xs ms axes, mesh_ok xs0 ms -> remeshFixedCont af p xs ms = Ok axes ->
    (prodlen axes <= 4294967295)%Z -> GridOk p axes.
  Proof.
    intros af xs0 xs ms axes [ML M] H F. split; auto.
    - unfold remeshFixedCont in H. rewrite (mapM_length _ _ _ H), combine_length, seq_length, ML. apply Nat.min_id.
    - apply Forall_forall. intros a Ha. apply In_nth_error in Ha. destruct Ha as (k & Ha).
      destruct (cont_nth _ _ _ _ _ _ ML H Ha) as (m & Em & E). apply M in Em.
      assert (E' := E). unfold remeshCont_axis in E'. invb. destruct Em as (_ & _ & ? & ?).
      eapply cont_axis_spec in E; eauto. apply E.
  Qed.

  (** Extent of the cloud along axis [k] relative to the initial extent is safe. *)
  Definition safe_cloud (ms : list (MeshAx R)) (xs : list TV) : Prop :=
    forall k m x, nth_error ms k = Some m -> In x xs ->
      (vget x k <= ma_min m -> safe_shift (ma_min m - vget x k)) /\
      (ma_max m <= vget x k -> safe_shift (vget x k - ma_max m)).
  Theorem cont_covers : forall af xs0 xs ms axes x, mesh_ok xs0 ms -> remeshFixedCont af p xs ms = Ok axes ->
    safe_cloud ms xs -> In x xs -> Covered p axes x.
  Proof.
    intros af xs0 xs ms axes x [ML M] H S Hx k a Ha.
    destruct (cont_nth _ _ _ _ _ _ ML H Ha) as (m & Em & E). pose proof (M _ _ Em) as (_ & _ & ? & ?).
    assert (E' := E). unfold remeshCont_axis in E'. invb.
    assert (E2' := E2). eapply cont_axis_spec in E; eauto. destruct E as (_ & _ & C). apply C; auto.
    - intros h. apply min_elem_spec in E1. destruct E1 as [I _]. apply in_map_iff in I. destruct I as (y & <- & Hy).
      apply (S k m y Em Hy); auto.
    - intros h. apply max_elem_spec in E0. destruct E0 as [I _]. apply in_map_iff in I. destruct I as (y & <- & Hy).
      apply (S k m y Em Hy); auto.
  Qed.

  (** C06: every grid is on the lattice of the first one. *)
  Theorem cont_lattice : forall af xs0 xs ms axes k a m, mesh_ok xs0 ms -> remeshFixedCont af p xs ms = Ok axes ->
    nth_error axes k = Some a -> nth_error ms k = Some m ->
    lattice (dx p) a /\ exists z, ax_c a = ma_low m + IZR z * dx p.
  Proof.
    intros af xs0 xs ms axes k a m [ML M] H Ha Hm.
    destruct (cont_nth _ _ _ _ _ _ ML H Ha) as (m' & Em & E). assert (m' = m) by congruence. subst m'.
    pose proof (M _ _ Em) as (_ & _ & ? & ?).
    assert (E' := E). unfold remeshCont_axis in E'. invb. eapply cont_axis_spec in E; eauto. tauto.
  Qed.

  (** ** The fixed grid of periodic simulations, C33 *)
  Theorem fixed_grid_ok : forall af e axes, remeshFixed af p e = Ok axes ->
    (prodlen axes <= 4294967295)%Z -> GridOk p axes.
  Proof.
    intros af e axes H F. unfold remeshFixed in H. split; auto.
    - rewrite (mapM_length _ _ _ H), seq_length. auto.
    - apply Forall_forall. intros a Ha. apply mapM_In with (y := a) in H; auto. destruct H as (k & _ & E).
      destruct k as [|[|k]]; apply mk_axis_spec in E; auto; apply E.
  Qed.
  Theorem fixed_covers : forall af axes x, remeshFixed af p 4 = Ok axes ->
    - 4 * dx p <= vget x 0 < Lx p + 4 * dx p ->
    0 <= vget x 1 < Ly p + 4 * dx p ->
    (dim = 3%nat -> - 4 * dx p <= vget x 2 < Lz p + 4 * dx p) ->
    Covered p axes x.
  Proof.
    intros af axes x H X Y Z k a Ha. unfold remeshFixed in H.
    assert (K : (k < dim)%nat).
    { assert (L := mapM_length _ _ _ H). rewrite seq_length in L. rewrite <- L. apply nth_error_Some. congruence. }
    eapply mapM_seq_nth in H; eauto. unfold remeshFixed_axis in H.
    destruct k as [|[|[|k]]]; try (apply mk_axis_spec in H; auto; destruct H as (C & L & S1 & S2);
      rewrite ?nofZ_R in *; numR; apply covered_iff; rewrite C).
    - simpl Z.add in *. split; lra.
    - simpl Z.add in *. split; lra.
    - simpl Z.add in *. assert (D : dim = 3%nat) by (destruct gl_dim; lia). specialize (Z D). split; lra.
    - destruct gl_dim; lia.
  Qed.
  Theorem fixed_terminates : 0 <= Lx p -> 0 <= Ly p -> 0 <= Lz p ->
    exists n0, forall af, (n0 <= af)%nat -> exists axes, remeshFixed af p 4 = Ok axes.
  Proof.
    intros HX HY HZ. unfold remeshFixed. apply (mapM_terminates _ _ (fun af k => remeshFixed_axis af p 4 k)).
    intros k _. destruct k as [|[|k]]; unfold remeshFixed_axis; rewrite ?nofZ_R; numR;
      apply mk_axis_terminates; simpl; auto; lra.
  Qed.
End Cov.
