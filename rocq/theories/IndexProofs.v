(** * IndexProofs: the node loop, the node numbering and the saved grid rows agree (C07). *)
From Coq Require Import Reals ZArith Lra Lia List Bool Permutation.
From Verif Require Import Num NumR Tools Lin Types Remesh Objects Transfer Save LinProofs ResProofs
  GridProofs StencilProofs Spec.
Import ListNotations.
Local Open Scope R_scope.

Lemma flat_map_lin : forall Y (h : nat -> list Y) ny nx,
  flat_map (fun i => flat_map (fun j => h (i * ny + j)%nat) (seq 0 ny)) (seq 0 nx)
  = flat_map h (seq 0 (nx * ny)).
Proof.
  induction nx; auto.
  rewrite seq_S, flat_map_app, IHnx. replace (S nx * ny)%nat with (nx * ny + ny)%nat by lia.
  rewrite seq_app, flat_map_app. f_equal. simpl. rewrite app_nil_r.
  assert (Q : forall m s, flat_map (fun j => h (nx * ny + j)%nat) (seq s m) = flat_map h (seq (nx * ny + s) m)).
  { induction m; intros; simpl; auto. rewrite IHm. do 2 f_equal. f_equal. lia. }
  rewrite Q. now rewrite Nat.add_0_r.
Qed.
Lemma flat_map_single : forall X Y (f : X -> Y) l, flat_map (fun x => [f x]) l = map f l.
Proof. induction l; simpl; congruence. Qed.
Lemma flat_map_ext_in : forall X Y (f g : X -> list Y) l, (forall x, In x l -> f x = g x) -> flat_map f l = flat_map g l.
Proof. induction l; simpl; intros; auto. rewrite H, IHl; auto. Qed.
Lemma map_lin : forall Y (f : nat -> nat -> Y) ny nx,
  flat_map (fun i => map (f i) (seq 0 ny)) (seq 0 nx)
  = map (fun n => f (n / ny)%nat (n mod ny)%nat) (seq 0 (nx * ny)).
Proof.
  intros. rewrite <- flat_map_single, <- flat_map_lin. apply flat_map_ext_in. intros i Hi.
  rewrite <- flat_map_single. apply flat_map_ext_in. intros j Hj. apply in_seq in Hj. do 2 f_equal.
  - rewrite Nat.add_comm, Nat.div_add by lia. rewrite Nat.div_small; lia.
  - rewrite Nat.add_comm, Nat.mod_add by lia. rewrite Nat.mod_small; lia.
Qed.
Lemma flat_map_map : forall X Y W (f : Y -> list W) (g : X -> Y) l, flat_map f (map g l) = flat_map (fun x => f (g x)) l.
Proof. induction l; simpl; congruence. Qed.
Lemma zseq_nat : forall n, zseq (Z.of_nat n) = map Z.of_nat (seq 0 n).
Proof. intros; unfold zseq. now rewrite Nat2Z.id. Qed.

Section Index.
  Context {G : Geo R} {GL : GeoLaws G}.
  Variable p : Par R.
  Hypothesis Hdx : 0 < dx p.

  Definition co (a : Axis R) (i : nat) : R := ax_c a + INR i * dx p.

  (** Position of node number [n]. *)
  Definition node_pos (axes : list (Axis R)) (n : nat) : TV :=
    match axes with
    | [ax; ay] => vset (vset vzero 0 (co ax (n / lat_n ay))) 1 (co ay (n mod lat_n ay))
    | [ax; ay; az] =>
        vset (vset (vset vzero 0 (co ax (n / lat_n az / lat_n ay))) 1 (co ay ((n / lat_n az) mod lat_n ay)))
             2 (co az (n mod lat_n az))
    | _ => vzero
    end.

  Lemma lat_pos : forall a, lattice (dx p) a -> (0 < lat_n a)%nat.
  Proof. intros a (n & Hn & E). unfold lat_n. rewrite E, map_length, seq_length. auto. Qed.

  Lemma axis_loop : forall a, lattice (dx p) a -> (Z.of_nat (lat_n a) <= 4294967295)%Z ->
    mapM (fun i => x <- rd (ax_co a) i ;; Ok (i, x)) (zseq (ax_n a))
    = Ok (map (fun i => (Z.of_nat i, co a i)) (seq 0 (lat_n a))).
  Proof.
    intros a L F. rewrite ax_n_val by auto. rewrite zseq_nat.
    rewrite (mapM_total _ (fun i => (i, ax_c a + IZR i * dx p))).
    - rewrite map_map. f_equal. apply map_ext. intros i. unfold co. now rewrite INR_IZR_INZ.
    - intros x Hx. apply in_map_iff in Hx. destruct Hx as (i & <- & Hi). apply in_seq in Hi.
      rewrite (lattice_rd (dx p)); auto. lia.
  Qed.

  Lemma fits2 : forall ax ay, GridOk p [ax; ay] -> lattice (dx p) ax /\ lattice (dx p) ay /\
    (Z.of_nat (lat_n ax) <= 4294967295)%Z /\ (Z.of_nat (lat_n ay) <= 4294967295)%Z.
  Proof.
    intros ax ay GO. pose proof (go_lat _ _ GO) as L. inversion L as [|? ? Lx L']; subst. inversion L' as [|? ? Ly _]; subst.
    pose proof (go_fit _ _ GO) as F. unfold prodlen in F. simpl in F. pose proof (lat_pos _ Lx). pose proof (lat_pos _ Ly).
    unfold lat_n in *. split; auto. split; auto. split; nia.
  Qed.
  Lemma fits3 : forall ax ay az, GridOk p [ax; ay; az] -> lattice (dx p) ax /\ lattice (dx p) ay /\ lattice (dx p) az /\
    (Z.of_nat (lat_n ax) <= 4294967295)%Z /\ (Z.of_nat (lat_n ay) <= 4294967295)%Z /\ (Z.of_nat (lat_n az) <= 4294967295)%Z /\
    (Z.of_nat (lat_n ax) * Z.of_nat (lat_n ay) <= 4294967295)%Z.
  Proof.
    intros ax ay az GO. pose proof (go_lat _ _ GO) as L. inversion L as [|? ? Lx L']; subst. inversion L' as [|? ? Ly L'']; subst.
    inversion L'' as [|? ? Lz _]; subst.
    pose proof (go_fit _ _ GO) as F. unfold prodlen in F. simpl in F. pose proof (lat_pos _ Lx). pose proof (lat_pos _ Ly). pose proof (lat_pos _ Lz).
    unfold lat_n in *. rewrite Z.mul_1_r in F.
    set (a := Z.of_nat (length (ax_co ax))) in *. set (b := Z.of_nat (length (ax_co ay))) in *. set (c := Z.of_nat (length (ax_co az))) in *.
    assert (1 <= a /\ 1 <= b /\ 1 <= c)%Z by lia.
    assert (1 <= b * c)%Z by nia. assert (a * b <= a * (b * c))%Z by nia.
    split; auto. split; auto. split; auto. split; [nia|]. split; [nia|]. split; [nia|]. lia.
  Qed.

  Theorem node_list_spec : forall axes, GridOk p axes ->
    node_list axes = Ok (map (fun n => (Z.of_nat n, node_pos axes n)) (seq 0 (Z.to_nat (prodlen axes)))).
  Proof.
    intros axes GO. destruct (axes_cases axes (go_dim _ _ GO)) as [(D & ax & ay & ->)|(D & ax & ay & az & ->)].
    - destruct (fits2 _ _ GO) as (Lx & Ly & Fx & Fy). unfold node_list. rewrite !axis_loop by auto. cbn [bind].
      f_equal. rewrite flat_map_map.
      replace (Z.to_nat (prodlen [ax; ay])) with (lat_n ax * lat_n ay)%nat by (unfold prodlen, lat_n; simpl; lia).
      transitivity (flat_map (fun i => map (fun j => (Z.of_nat (i * lat_n ay + j), vset (vset vzero 0 (co ax i)) 1 (co ay j))) (seq 0 (lat_n ay))) (seq 0 (lat_n ax))).
      + apply flat_map_ext_in. intros i Hi. apply in_seq in Hi. rewrite map_map. apply map_ext_in. intros j Hj. apply in_seq in Hj.
        cbn [fst snd]. rewrite ax_n_val by auto. pose proof (go_fit _ _ GO) as F.
        assert (F' : (Z.of_nat (lat_n ax) * Z.of_nat (lat_n ay) <= 4294967295)%Z) by (unfold prodlen, lat_n in *; simpl in F; lia).
        destruct (ind2_val (Z.of_nat (lat_n ax)) (Z.of_nat (lat_n ay)) (Z.of_nat i) (Z.of_nat j)) as [E _]; try lia.
        rewrite E. f_equal; lia.
      + rewrite map_lin. apply map_ext. intros n. cbn beta. f_equal.
        pose proof (lat_pos _ Ly). rewrite (Nat.mul_comm (n / lat_n ay)), <- Nat.div_mod by lia. auto.
    - destruct (fits3 _ _ _ GO) as (Lx & Ly & Lz & Fx & Fy & Fz & Fxy). unfold node_list. rewrite !axis_loop by auto. cbn [bind].
      f_equal. rewrite flat_map_map.
      set (nx := lat_n ax) in *. set (ny := lat_n ay) in *. set (nz := lat_n az) in *.
      replace (Z.to_nat (prodlen [ax; ay; az])) with (nx * ny * nz)%nat by (unfold nx, ny, nz, prodlen, lat_n; simpl; lia).
      transitivity (flat_map (fun m => map (fun k => (Z.of_nat (m * nz + k),
         vset (vset (vset vzero 0 (co ax (m / ny))) 1 (co ay (m mod ny))) 2 (co az k))) (seq 0 nz)) (seq 0 (nx * ny))).
      2: { rewrite map_lin. apply map_ext. intros n. cbn beta. f_equal.
        assert (0 < nz)%nat by (apply lat_pos; auto). rewrite (Nat.mul_comm (n / nz)), <- Nat.div_mod by lia. auto. }
      rewrite <- (flat_map_lin _ (fun m => map _ (seq 0 nz)) ny nx).
      apply flat_map_ext_in. intros i Hi. apply in_seq in Hi. rewrite flat_map_map. apply flat_map_ext_in. intros j Hj. apply in_seq in Hj.
      rewrite map_map. apply map_ext_in. intros k Hk. apply in_seq in Hk. cbn [fst snd].
      rewrite !ax_n_val by auto. fold nx ny nz.
      destruct (ind3_val (Z.of_nat nx) (Z.of_nat ny) (Z.of_nat nz) (Z.of_nat i) (Z.of_nat j) (Z.of_nat k)) as [E _]; try lia.
      { pose proof (go_fit _ _ GO) as F. unfold prodlen in F; simpl in F. unfold nx, ny, nz, lat_n. nia. }
      rewrite E.
      assert (Q1 : ((i * ny + j) / ny = i)%nat) by (rewrite Nat.add_comm, Nat.div_add by lia; rewrite Nat.div_small; lia).
      assert (Q2 : ((i * ny + j) mod ny = j)%nat) by (rewrite Nat.add_comm, Nat.mod_add by lia; apply Nat.mod_small; lia).
      rewrite Q1, Q2. f_equal; lia.
  Qed.
  Theorem grid_x_save_spec : forall axes, GridOk p axes ->
    grid_x_save axes = map (node_pos axes) (seq 0 (Z.to_nat (prodlen axes))).
  Proof.
    intros axes GO. destruct (axes_cases axes (go_dim _ _ GO)) as [(D & ax & ay & ->)|(D & ax & ay & az & ->)].
    - destruct (fits2 _ _ GO) as (Lx & Ly & Fx & Fy). unfold grid_x_save, node_pos.
      rewrite (lattice_co _ _ Lx), (lattice_co _ _ Ly), flat_map_map.
      replace (Z.to_nat (prodlen [ax; ay])) with (lat_n ax * lat_n ay)%nat by (unfold prodlen, lat_n; simpl; lia).
      rewrite <- (map_lin _ (fun i j => vset (vset vzero 0 (co ax i)) 1 (co ay j))).
      apply flat_map_ext_in. intros i Hi. rewrite map_map. reflexivity.
    - destruct (fits3 _ _ _ GO) as (Lx & Ly & Lz & Fx & Fy & Fz & Fxy). unfold grid_x_save, node_pos.
      rewrite (lattice_co _ _ Lx), (lattice_co _ _ Ly), (lattice_co _ _ Lz), flat_map_map.
      set (nx := lat_n ax) in *. set (ny := lat_n ay) in *. set (nz := lat_n az) in *.
      replace (Z.to_nat (prodlen [ax; ay; az])) with (nx * ny * nz)%nat by (unfold nx, ny, nz, prodlen, lat_n; simpl; lia).
      rewrite <- (map_lin _ (fun m k =>
         vset (vset (vset vzero 0 (co ax (m / ny))) 1 (co ay (m mod ny))) 2 (co az k))) at 1.
      rewrite <- (flat_map_lin _ (fun m => map _ (seq 0 nz)) ny nx).
      apply flat_map_ext_in. intros i Hi. apply in_seq in Hi. rewrite flat_map_map. apply flat_map_ext_in. intros j Hj. apply in_seq in Hj.
      rewrite map_map. apply map_ext_in. intros k Hk.
      assert (Q1 : ((i * ny + j) / ny = i)%nat) by (rewrite Nat.add_comm, Nat.div_add by lia; rewrite Nat.div_small; lia).
      assert (Q2 : ((i * ny + j) mod ny = j)%nat) by (rewrite Nat.add_comm, Nat.mod_add by lia; apply Nat.mod_small; lia).
      rewrite Q1, Q2. reflexivity.
  Qed.

  Lemma prodlen_pos : forall axes, GridOk p axes -> (1 <= prodlen axes)%Z.
  Proof.
    intros axes GO. pose proof (go_lat _ _ GO) as L. clear GO. induction L; simpl; [lia|].
    pose proof (lat_pos _ H). unfold lat_n in *. nia.
  Qed.
  Lemma grid_nodes_val : forall axes, GridOk p axes -> grid_nodes axes = prodlen axes.
  Proof.
    intros axes GO. pose proof (go_fit _ _ GO) as F. pose proof (prodlen_pos _ GO) as P.
    destruct (axes_cases axes (go_dim _ _ GO)) as [(D & ax & ay & ->)|(D & ax & ay & az & ->)].
    - destruct (fits2 _ _ GO) as (Lx & Ly & Fx & Fy). unfold grid_nodes. simpl map. rewrite !ax_n_val by auto.
      unfold prodlen, lat_n in *; simpl in *. rewrite wrapu_small; lia.
    - destruct (fits3 _ _ _ GO) as (Lx & Ly & Lz & Fx & Fy & Fz & Fxy). unfold grid_nodes. simpl map. rewrite !ax_n_val by auto.
      unfold prodlen, lat_n in *; simpl in *. rewrite (wrapu_small (Z.of_nat (length (ax_co ax)) * Z.of_nat (length (ax_co ay)))) by lia. rewrite wrapu_small; lia.
  Qed.
  Lemma resize_length : forall axes, GridOk p axes -> Z.of_nat (length (resizeGrid axes)) = prodlen axes.
  Proof. intros. unfold resizeGrid. rewrite repeat_length, grid_nodes_val; auto. pose proof (prodlen_pos _ H). lia. Qed.

  (** A stencil entry names the node at its own position. *)
  Theorem stencil_pos : forall axes x it, GridOk p axes -> Covered p axes x -> In it (items_of p axes x) ->
    it_x it = node_pos axes (Z.to_nat (it_idx it)).
  Proof.
    intros axes x it GO C Hi. destruct (stencil_cov p Hdx _ _ GO C) as (_ & _ & S).
    destruct (sl_at _ _ _ _ S it Hi) as (ijk & K & E). rewrite E.
    destruct (axes_cases axes (go_dim _ _ GO)) as [(D & ax & ay & ->)|(D & ax & ay & az & ->)].
    - destruct (fits2 _ _ GO) as (Lx & Ly & Fx & Fy). rewrite ax_n_val by auto.
      destruct (K 0%nat ax eq_refl) as [Kx Px]. destruct (K 1%nat ay eq_refl) as [Ky Py].
      pose proof (go_fit _ _ GO) as F. unfold prodlen in F; simpl in F.
      destruct (ind2_val (Z.of_nat (lat_n ax)) (Z.of_nat (lat_n ay)) (ijk 0%nat) (ijk 1%nat)) as [E' B']; try lia.
      { unfold lat_n; lia. }
      rewrite E'. set (i := ijk 0%nat) in *. set (j := ijk 1%nat) in *.
      assert (Z.to_nat (i * Z.of_nat (lat_n ay) + j) = Z.to_nat i * lat_n ay + Z.to_nat j)%nat as -> by nia.
      unfold node_pos. set (ny := lat_n ay) in *.
      assert (Q1 : ((Z.to_nat i * ny + Z.to_nat j) / ny = Z.to_nat i)%nat) by (rewrite Nat.add_comm, Nat.div_add by lia; rewrite Nat.div_small; lia).
      assert (Q2 : ((Z.to_nat i * ny + Z.to_nat j) mod ny = Z.to_nat j)%nat) by (rewrite Nat.add_comm, Nat.mod_add by lia; apply Nat.mod_small; lia).
      rewrite Q1, Q2. unfold co. rewrite !INR_IZR_INZ, !Z2Nat.id by lia.
      apply vext. intros k Hk. rewrite !vget_set by auto.
      destruct k as [|[|k]]; simpl; auto. lia.
    - destruct (fits3 _ _ _ GO) as (Lx & Ly & Lz & Fx & Fy & Fz & Fxy). rewrite !ax_n_val by auto.
      destruct (K 0%nat ax eq_refl) as [Kx Px]. destruct (K 1%nat ay eq_refl) as [Ky Py]. destruct (K 2%nat az eq_refl) as [Kz Pz].
      pose proof (go_fit _ _ GO) as F. unfold prodlen in F; simpl in F.
      destruct (ind3_val (Z.of_nat (lat_n ax)) (Z.of_nat (lat_n ay)) (Z.of_nat (lat_n az)) (ijk 0%nat) (ijk 1%nat) (ijk 2%nat)) as [E' B']; try lia.
      { unfold lat_n; lia. }
      rewrite E'. set (i := ijk 0%nat) in *. set (j := ijk 1%nat) in *. set (l := ijk 2%nat) in *.
      set (ny := lat_n ay) in *. set (nz := lat_n az) in *.
      assert (Z.to_nat ((i * Z.of_nat ny + j) * Z.of_nat nz + l) = (Z.to_nat i * ny + Z.to_nat j) * nz + Z.to_nat l)%nat as -> by nia.
      unfold node_pos. fold ny nz.
      set (m := (Z.to_nat i * ny + Z.to_nat j)%nat).
      assert (Q1 : ((m * nz + Z.to_nat l) / nz = m)%nat) by (rewrite Nat.add_comm, Nat.div_add by lia; rewrite Nat.div_small; lia).
      assert (Q2 : ((m * nz + Z.to_nat l) mod nz = Z.to_nat l)%nat) by (rewrite Nat.add_comm, Nat.mod_add by lia; apply Nat.mod_small; lia).
      rewrite Q1, Q2. unfold m.
      assert (Q3 : ((Z.to_nat i * ny + Z.to_nat j) / ny = Z.to_nat i)%nat) by (rewrite Nat.add_comm, Nat.div_add by lia; rewrite Nat.div_small; lia).
      assert (Q4 : ((Z.to_nat i * ny + Z.to_nat j) mod ny = Z.to_nat j)%nat) by (rewrite Nat.add_comm, Nat.mod_add by lia; apply Nat.mod_small; lia).
      rewrite Q3, Q4. unfold co. rewrite !INR_IZR_INZ, !Z2Nat.id by lia.
      apply vext. intros k Hk. rewrite !vget_set by auto.
      destruct k as [|[|[|k]]]; simpl; auto. lia.
  Qed.
End Index.

Lemma index_bij2 : forall nx ny : Z, (0 < nx)%Z -> (0 < ny)%Z -> (nx * ny <= 4294967295)%Z ->
  (forall i j, (0 <= i < nx)%Z -> (0 <= j < ny)%Z -> (0 <= ind2 ny i j < nx * ny)%Z) /\
  (forall n, (0 <= n < nx * ny)%Z -> exists! ij : Z * Z,
     (0 <= fst ij < nx)%Z /\ (0 <= snd ij < ny)%Z /\ ind2 ny (fst ij) (snd ij) = n).
Proof.
  intros nx ny Hx Hy F. split.
  - intros i j Hi Hj. destruct (ind2_val nx ny i j Hi Hj F) as (-> & ?); auto.
  - intros n Hn. exists (n / ny, n mod ny)%Z.
    assert (Hi : (0 <= n / ny < nx)%Z) by (split; [apply Z.div_pos; lia|apply Z.div_lt_upper_bound; lia]).
    assert (Hj : (0 <= n mod ny < ny)%Z) by (apply Z.mod_pos_bound; lia).
    split; cbn [fst snd].
    + split; auto. split; auto. destruct (ind2_val nx ny _ _ Hi Hj F) as (-> & _).
      rewrite (Z.div_mod n ny) at 3 by lia. ring.
    + intros [i j] (Hi' & Hj' & E). cbn [fst snd] in *. destruct (ind2_val nx ny _ _ Hi' Hj' F) as (E' & _).
      rewrite E' in E. subst n. f_equal.
      * rewrite Z.div_add_l by lia. rewrite Z.div_small by lia. lia.
      * rewrite Z.add_comm, Z.mod_add by lia. apply Z.mod_small; lia.
Qed.
Lemma index_bij3 : forall nx ny nz : Z, (0 < nx)%Z -> (0 < ny)%Z -> (0 < nz)%Z -> (nx * ny * nz <= 4294967295)%Z ->
  (forall i j k, (0 <= i < nx)%Z -> (0 <= j < ny)%Z -> (0 <= k < nz)%Z -> (0 <= ind3 ny nz i j k < nx * ny * nz)%Z) /\
  (forall n, (0 <= n < nx * ny * nz)%Z -> exists! ijk : Z * Z * Z,
     (0 <= fst (fst ijk) < nx)%Z /\ (0 <= snd (fst ijk) < ny)%Z /\ (0 <= snd ijk < nz)%Z /\
     ind3 ny nz (fst (fst ijk)) (snd (fst ijk)) (snd ijk) = n).
Proof.
  intros nx ny nz Hx Hy Hz F. split.
  - intros i j k Hi Hj Hk. destruct (ind3_val nx ny nz i j k Hi Hj Hk F) as (-> & ?); auto.
  - intros n Hn. exists (n / nz / ny, (n / nz) mod ny, n mod nz)%Z.
    assert (Hq : (0 <= n / nz < nx * ny)%Z) by (split; [apply Z.div_pos; lia|apply Z.div_lt_upper_bound; lia]).
    assert (Hi : (0 <= n / nz / ny < nx)%Z) by (split; [apply Z.div_pos; lia|apply Z.div_lt_upper_bound; lia]).
    assert (Hj : (0 <= (n / nz) mod ny < ny)%Z) by (apply Z.mod_pos_bound; lia).
    assert (Hk : (0 <= n mod nz < nz)%Z) by (apply Z.mod_pos_bound; lia).
    split; cbn [fst snd].
    + split; auto. split; auto. split; auto. destruct (ind3_val nx ny nz _ _ _ Hi Hj Hk F) as (-> & _).
      pose proof (Z.div_mod n nz ltac:(lia)). pose proof (Z.div_mod (n / nz) ny ltac:(lia)). nia.
    + intros [[i j] k] (Hi' & Hj' & Hk' & E). cbn [fst snd] in *. destruct (ind3_val nx ny nz _ _ _ Hi' Hj' Hk' F) as (E' & _).
      rewrite E' in E. subst n.
      assert (D : (((i * ny + j) * nz + k) / nz = i * ny + j)%Z) by (rewrite Z.div_add_l, (Z.div_small k) by lia; lia).
      rewrite D. f_equal; [f_equal|].
      * rewrite Z.div_add_l by lia. rewrite Z.div_small by lia. lia.
      * rewrite Z.add_comm, Z.mod_add by lia. apply Z.mod_small; lia.
      * rewrite Z.add_comm, Z.mod_add by lia. apply Z.mod_small; lia.
Qed.
