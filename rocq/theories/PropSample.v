(** * Properties C48 and C49: particle sampling. *)
From Coq Require Import Reals ZArith Lra Lia List Bool Psatz Permutation.
From Verif Require Import Num NumR Tools Lin Types Remesh Transfer Step Sampling Spec SpecStep LinProofs ResProofs GridProofs Examples ExStep.
From Flocq Require Import Core.Raux.
Import ListNotations.
Local Open Scope R_scope.

(** ** Words of the statements *)
Section Words.
  Context {G : Geo R}.
  (** Box side along an axis. *)
  Definition side (p : Par R) (k : nat) : R := match k with 0%nat => Lx p | 1%nat => Ly p | _ => Lz p end.
  Definition box_volume (p : Par R) : R := fold_right Rmult 1 (map (side p) (seq 0 dim)).
  (** Box volume without one layer of thickness [s] along every axis. *)
  Definition inner_volume (p : Par R) (s : R) : R := fold_right Rmult 1 (map (fun k => side p k - s) (seq 0 dim)).
  (** Centre of a cube of side [s] of the tiling that starts at the origin and fits in the box. *)
  Definition cell_centre (p : Par R) (s : R) (x : TV) : Prop :=
    exists ijk : nat -> nat, forall k, (k < dim)%nat -> (INR (ijk k) + 1) * s <= side p k /\ vget x k = (INR (ijk k) + 1/2) * s.
  (** Distance. *)
  Definition distance (x y : TV) : R := sqrt (Rsum (fun k => (vget x k - vget y k)²) (seq 0 dim)).
  (** The crop shapes; [d] is the grid spacing.  2D: 1 is the gate.  3D: 1 is the cylinder, 2 the silo. *)
  Definition shape (p : Par R) (crop : Z) (d : R) (x : TV) : Prop :=
    match dim with
    | 2%nat => crop = 1%Z -> vget x 1 < 5/100 + 100 * (vget x 0 - Lx p)² - d / 2
    | _ => (crop = 1%Z -> (vget x 0 - Lx p / 2)² + (vget x 2 - Lz p / 2)² < (Lx p / 2)²) /\
           (crop = 2%Z -> (vget x 0 - Lx p / 2)² + (vget x 2 - Lz p / 2)² < (tanh (vget x 1) + 1)²)
    end.
  (** Particles at rest, undeformed, without stress and history. *)
  Definition pristine (P : Particles R) (n : nat) : Prop :=
    consistent P n /\ (forall v, In v (p_v P) -> v = vzero) /\ (forall F, In F (p_F P) -> F = mident) /\
    (forall t, In t (p_tau P) -> t = mzero) /\ (forall B, In B (p_B P) -> B = mzero) /\ (forall h, In h (p_hist P) -> h = mkHist 0 0 0 0 0 0).
End Words.

(** ** Proofs *)
Lemma nodup_app : forall X (a b : list X), NoDup a -> NoDup b -> (forall x, In x a -> ~ In x b) -> NoDup (a ++ b).
Proof.
  induction a as [|x a IH]; intros b Na Nb D; cbn; auto. inversion Na; subst. constructor.
  - rewrite in_app_iff. intros [H|H]; [auto|]. now apply (D x (or_introl eq_refl)).
  - apply IH; auto. intros y Hy. apply D. now right.
Qed.
Lemma nodup_flat : forall X Y (f : X -> list Y) l, NoDup l -> (forall x, In x l -> NoDup (f x)) ->
  (forall x x' y, In x l -> In x' l -> In y (f x) -> In y (f x') -> x = x') -> NoDup (flat_map f l).
Proof.
  intros X Y f. induction l as [|a l IH]; intros N H D; cbn; [constructor|]. inversion N; subst. apply nodup_app.
  - apply H. now left.
  - apply IH; auto; intros; [apply H; now right|]. eapply D; eauto; now right.
  - intros y Hy Hi. apply in_flat_map in Hi. destruct Hi as (x & Hx & Hxy). assert (a = x) by (apply (D a x y); auto; [now left|now right]). subst. auto.
Qed.
Lemma fm_len : forall X Y (f : X -> list Y) l c, (forall x, In x l -> length (f x) = c) -> length (flat_map f l) = (length l * c)%nat.
Proof. intros X Y f l c. induction l as [|a l IH]; intros H; cbn; auto. rewrite app_length, H by now left. rewrite IH; auto. intros; apply H; now right. Qed.
Lemma nodup_map : forall X Y (f : X -> Y) l, NoDup l -> (forall x y, f x = f y -> x = y) -> NoDup (map f l).
Proof. intros X Y f l N I. now apply FinFun.Injective_map_NoDup. Qed.
Lemma Rcbrt_pos : forall x, 0 < x -> 0 < Rcbrt x.
Proof. intros x H. unfold Rcbrt. destruct (Rlt_dec 0 x); [apply exp_pos|lra]. Qed.
Lemma Rcbrt_cube : forall x, 0 < x -> Rcbrt x * Rcbrt x * Rcbrt x = x.
Proof. intros x H. unfold Rcbrt. destruct (Rlt_dec 0 x); [|lra]. rewrite <- !exp_plus. replace (ln x / 3 + ln x / 3 + ln x / 3) with (ln x) by field. now apply exp_ln. Qed.

Section Sample.
  Context {G : Geo R}.
  Variable p : Par R.
  Variable s : R.
  Hypothesis Hs : 0 < s.
  Hypothesis Hb : forall k, (k < dim)%nat -> 0 <= side p k < 2147483648 * s.
  Definition cells (k : nat) : nat := Z.to_nat (Zfloor (side p k / s)).
  Lemma cells_int : forall k, (k < dim)%nat -> to_int (side p k / s) = Ok (Z.of_nat (cells k)) /\ INR (cells k) * s <= side p k < (INR (cells k) + 1) * s.
  Proof.
    intros k Hk. destruct (Hb k Hk) as (H0 & H1). assert (Q0 : 0 <= side p k / s) by (apply Rmult_le_pos; auto; apply Rlt_le, Rinv_0_lt_compat; auto).
    assert (Q1 : side p k / s < 2147483648) by (apply (Rmult_lt_reg_r s); auto; unfold Rdiv; rewrite Rmult_assoc, Rinv_l, Rmult_1_r; lra).
    pose proof (Zfloor_bounds (side p k / s)) as Fl. assert (F0 : (0 <= Zfloor (side p k / s))%Z) by (apply Zfloor_lub; auto).
    assert (F1 : (Zfloor (side p k / s) <= 2147483647)%Z). { assert (IZR (Zfloor (side p k / s)) < 2147483648) by lra. apply (lt_IZR _ 2147483648) in H. lia. }
    unfold cells. rewrite Z2Nat.id by auto. split.
    - unfold to_int. numR. rewrite Ztrunc_floor by auto. unfold int_ok. destruct (Z.leb_spec (-2147483648) (Zfloor (side p k / s))); [|lia]. destruct (Z.leb_spec (Zfloor (side p k / s)) 2147483647); [reflexivity|lia].
    - rewrite INR_IZR_INZ, Z2Nat.id by auto. assert (E : side p k = side p k / s * s) by (field; lra). rewrite E at 2 3. split; [apply Rmult_le_compat_r; lra|apply Rmult_lt_compat_r; lra].
  Qed.
  Lemma cell_R : forall i, cell s i = (INR i + 1/2) * s.
  Proof. intros i. unfold cell. rewrite !nofZ_R. numR. rewrite <- INR_IZR_INZ. cbn. field. Qed.
  Lemma cell_lt : forall k i, (k < dim)%nat -> (i < cells k)%nat <-> (INR i + 1) * s <= side p k.
  Proof.
    intros k i Hk. destruct (cells_int k Hk) as (_ & A & B). split; intros H.
    - apply Rle_trans with (INR (cells k) * s); auto. apply Rmult_le_compat_r; [lra|]. replace (INR i + 1) with (INR (S i)) by (rewrite S_INR; ring). apply le_INR. lia.
    - assert (INR i + 1 < INR (cells k) + 1) by (apply (Rmult_lt_reg_r s); lra). apply INR_lt. lra.
  Qed.
  Lemma cell_inj : forall i j, cell s i = cell s j -> i = j.
  Proof. intros i j H. rewrite !cell_R in H. apply Rmult_eq_reg_r in H; [|lra]. apply INR_eq. lra. Qed.
End Sample.
(** The points, their number, and that no point occurs twice. *)
  Lemma points_spec : forall G, two_or_three G -> forall p s, 0 < s -> (forall k, (k < dim)%nat -> 0 <= side p k < 2147483648 * s) -> exists pts, regular_points p s = Ok pts /\ (forall x, In x pts <-> cell_centre p s x) /\ NoDup pts /\
    INR (length pts) = fold_right Rmult 1 (map (fun k => INR (cells p s k)) (seq 0 dim)).
  Proof.
    intros G HG p s Hs Hb. pose proof (fun k => cells_int p s Hs Hb k) as CI. pose proof (fun k i => cell_lt p s Hs Hb k i) as CL. pose proof (fun i j => cell_inj s Hs i j) as cell_inj. unfold regular_points. numR. destruct HG as [-> | ->].
    - pose proof (CI 0%nat ltac:(cbn; lia)) as (I0 & _). pose proof (CI 1%nat ltac:(cbn; lia)) as (I1 & _). cbn [side] in I0, I1. rewrite I0, I1. cbn [bind dim Geo2]. rewrite !Nat2Z.id.
      eexists. split; [reflexivity|]. split; [|split].
      + intros x. rewrite in_flat_map. split.
        * intros (i & Hi & Hx). apply in_map_iff in Hx. destruct Hx as (j & <- & Hj). apply in_seq in Hi, Hj. exists (fun k => match k with 0%nat => i | _ => j end).
          intros [|[|k]] Hk; cbn in Hk; try lia; (split; [apply CL; cbn; lia|]); rewrite <- cell_R; reflexivity.
        * intros (ijk & H). exists (ijk 0%nat). destruct (H 0%nat ltac:(cbn; lia)) as (A0 & B0). destruct (H 1%nat ltac:(cbn; lia)) as (A1 & B1). apply CL in A0, A1; try (cbn; lia).
          split; [apply in_seq; lia|]. apply in_map_iff. exists (ijk 1%nat). split; [|apply in_seq; lia]. destruct x as [x0 x1]. rewrite !cell_R. cbn [vget Geo2 Geo3 v2_0 v2_1 v3_0 v3_1 v3_2] in *. rewrite <- B0, <- B1. reflexivity.
      + apply nodup_flat; [apply seq_NoDup| |].
        * intros i _. apply nodup_map; [apply seq_NoDup|]. intros j j' E. apply (f_equal (fun v => vget v 1)) in E. cbn in E. now apply cell_inj.
        * intros i i' y _ _ H H'. apply in_map_iff in H. apply in_map_iff in H'. destruct H as (j & <- & _). destruct H' as (j' & E & _). apply (f_equal (fun v => vget v 0)) in E. cbn in E. symmetry. now apply cell_inj.
      + rewrite (fm_len _ _ _ _ (cells p s 1)); [|intros; rewrite map_length, seq_length; reflexivity]. rewrite seq_length, mult_INR. cbn. ring.
    - pose proof (CI 0%nat ltac:(cbn; lia)) as (I0 & _). pose proof (CI 1%nat ltac:(cbn; lia)) as (I1 & _). pose proof (CI 2%nat ltac:(cbn; lia)) as (I2 & _). cbn [side] in I0, I1, I2. rewrite I0, I1, I2. cbn [bind dim Geo3]. rewrite !Nat2Z.id.
      eexists. split; [reflexivity|]. split; [|split].
      + intros x. rewrite in_flat_map. split.
        * intros (i & Hi & Hx). apply in_flat_map in Hx. destruct Hx as (j & Hj & Hx). apply in_map_iff in Hx. destruct Hx as (k & <- & Hk). apply in_seq in Hi, Hj, Hk. exists (fun a => match a with 0%nat => i | 1%nat => j | _ => k end).
          intros [|[|[|a]]] Ha; cbn in Ha; try lia; (split; [apply CL; cbn; lia|]); rewrite <- cell_R; reflexivity.
        * intros (ijk & H). exists (ijk 0%nat). destruct (H 0%nat ltac:(cbn; lia)) as (A0 & B0). destruct (H 1%nat ltac:(cbn; lia)) as (A1 & B1). destruct (H 2%nat ltac:(cbn; lia)) as (A2 & B2). apply CL in A0, A1, A2; try (cbn; lia).
          split; [apply in_seq; lia|]. apply in_flat_map. exists (ijk 1%nat). split; [apply in_seq; lia|]. apply in_map_iff. exists (ijk 2%nat). split; [|apply in_seq; lia]. destruct x as [x0 x1 x2]. rewrite !cell_R. cbn [vget Geo2 Geo3 v2_0 v2_1 v3_0 v3_1 v3_2] in *. rewrite <- B0, <- B1, <- B2. reflexivity.
      + apply nodup_flat; [apply seq_NoDup| |].
        * intros i _. apply nodup_flat; [apply seq_NoDup| |].
          -- intros j _. apply nodup_map; [apply seq_NoDup|]. intros k k' E. apply (f_equal (fun v => vget v 2)) in E. cbn in E. now apply cell_inj.
          -- intros j j' y _ _ H H'. apply in_map_iff in H. apply in_map_iff in H'. destruct H as (k & <- & _). destruct H' as (k' & E & _). apply (f_equal (fun v => vget v 1)) in E. cbn in E. symmetry. now apply cell_inj.
        * intros i i' y _ _ H H'. apply in_flat_map in H. apply in_flat_map in H'. destruct H as (j & _ & H). destruct H' as (j' & _ & H'). apply in_map_iff in H. apply in_map_iff in H'. destruct H as (k & <- & _). destruct H' as (k' & E & _). apply (f_equal (fun v => vget v 0)) in E. cbn in E. symmetry. now apply cell_inj.
      + rewrite (fm_len _ _ _ _ (cells p s 1 * cells p s 2)%nat); [rewrite seq_length, !mult_INR; cbn; ring|].
        intros i _. rewrite (fm_len _ _ _ _ (cells p s 2)); [now rewrite seq_length|]. intros; rewrite map_length, seq_length; reflexivity.
  Qed.
  Lemma centres_apart : forall G, two_or_three G -> forall p s, 0 < s -> forall x y : TV, cell_centre p s x -> cell_centre p s y -> x <> y -> s <= distance x y.
  Proof.
    intros G HG p s Hs x y (i & Hi) (j & Hj) N. pose proof (geolaws G HG) as GL.
    assert (D : exists k, (k < dim)%nat /\ vget x k <> vget y k).
    { destruct (forallb (fun k => if Req_EM_T (vget x k) (vget y k) then true else false) (seq 0 dim)) eqn:E.
      - exfalso. apply N. apply vext. intros k Hk. apply (proj1 (forallb_forall _ _)) with (x := k) in E; [|apply in_seq; lia]. destruct (Req_EM_T (vget x k) (vget y k)); auto; discriminate.
      - assert (E' : existsb (fun k => negb (if Req_EM_T (vget x k) (vget y k) then true else false)) (seq 0 dim) = true).
        { rewrite <- negb_false_iff in E || idtac. clear -E. induction (seq 0 dim) as [|a l IH]; cbn in *; [discriminate|]. destruct (Req_EM_T (vget x a) (vget y a)); cbn in *; auto. }
        apply existsb_exists in E'. destruct E' as (k & Hk & E'). apply in_seq in Hk. exists k. split; [lia|]. destruct (Req_EM_T (vget x k) (vget y k)); [discriminate|auto]. }
    destruct D as (k & Hk & D). destruct (Hi k Hk) as (_ & Xk). destruct (Hj k Hk) as (_ & Yk).
    assert (S2 : s² <= (vget x k - vget y k)²).
    { rewrite Xk, Yk. assert (NE : i k <> j k) by (intros E; apply D; rewrite Xk, Yk, E; reflexivity).
      replace ((INR (i k) + 1 / 2) * s - (INR (j k) + 1 / 2) * s) with ((INR (i k) - INR (j k)) * s) by ring. rewrite Rsqr_mult.
      assert (1 <= (INR (i k) - INR (j k))²).
      { unfold Rsqr. destruct (Nat.lt_ge_cases (i k) (j k)) as [L|L].
        - apply (le_INR (S (i k))) in L. rewrite S_INR in L. nra.
        - assert (L' : (S (j k) <= i k)%nat) by lia. apply le_INR in L'. rewrite S_INR in L'. nra. }
      pose proof (Rle_0_sqr s). nra. }
    unfold distance. rewrite <- (sqrt_Rsqr s) by lra. apply sqrt_le_1_alt. apply Rle_trans with (1 := S2).
    apply (Rsum_ge_one (fun k => (vget x k - vget y k)²)); [intros; apply Rle_0_sqr|apply in_seq; lia].
  Qed.
  Lemma centre_in_box : forall (G : Geo R) p s, 0 < s -> forall x : TV, cell_centre p s x -> forall k, (k < dim)%nat -> 0 < vget x k < side p k.
  Proof. intros G p s Hs x (i & Hi) k Hk. destruct (Hi k Hk) as (A & ->). pose proof (pos_INR (i k)). split; [apply Rmult_lt_0_compat; lra|]. nra. Qed.
  Lemma volume_bounds : forall G, two_or_three G -> forall p s, 0 < s -> (forall k, (k < dim)%nat -> 0 <= side p k < 2147483648 * s) -> let N := fold_right Rmult 1 (map (fun k => INR (cells p s k)) (seq 0 dim)) in let v := fold_right Rmult 1 (map (fun _ => s) (seq 0 dim)) in
    N * v <= box_volume p /\ ((forall k, (k < dim)%nat -> s <= side p k) -> inner_volume p s <= N * v).
  Proof.
    intros G HG p s Hs Hb. cbv zeta. pose proof (fun k => cells_int p s Hs Hb k) as CI. unfold box_volume, inner_volume. destruct HG as [-> | ->].
    - pose proof (CI 0%nat ltac:(cbn; lia)) as (_ & A0 & B0). pose proof (CI 1%nat ltac:(cbn; lia)) as (_ & A1 & B1). pose proof (pos_INR (cells p s 0)). pose proof (pos_INR (cells p s 1)).
      cbn [dim Geo2 seq map fold_right] in *. assert (0 <= INR (cells p s 0) * s) by nra. assert (0 <= INR (cells p s 1) * s) by nra. split.
      + apply Rle_trans with ((INR (cells p s 0) * s) * (INR (cells p s 1) * s)); [right; ring|]. rewrite !Rmult_1_r. apply Rmult_le_compat; auto.
      + intros Hl. pose proof (Hl 0%nat ltac:(cbn; lia)). pose proof (Hl 1%nat ltac:(cbn; lia)).
        apply Rle_trans with ((INR (cells p s 0) * s) * (INR (cells p s 1) * s)); [|right; ring]. rewrite !Rmult_1_r. apply Rmult_le_compat; lra.
    - pose proof (CI 0%nat ltac:(cbn; lia)) as (_ & A0 & B0). pose proof (CI 1%nat ltac:(cbn; lia)) as (_ & A1 & B1). pose proof (CI 2%nat ltac:(cbn; lia)) as (_ & A2 & B2). pose proof (pos_INR (cells p s 0)). pose proof (pos_INR (cells p s 1)). pose proof (pos_INR (cells p s 2)).
      cbn [dim Geo3 seq map fold_right] in *. assert (0 <= INR (cells p s 0) * s) by nra. assert (0 <= INR (cells p s 1) * s) by nra. assert (0 <= INR (cells p s 2) * s) by nra. split.
      + apply Rle_trans with ((INR (cells p s 0) * s) * ((INR (cells p s 1) * s) * (INR (cells p s 2) * s))); [right; ring|]. rewrite !Rmult_1_r. repeat apply Rmult_le_compat; auto. now apply Rmult_le_pos.
      + intros Hl. pose proof (Hl 0%nat ltac:(cbn; lia)). pose proof (Hl 1%nat ltac:(cbn; lia)). pose proof (Hl 2%nat ltac:(cbn; lia)).
        apply Rle_trans with ((INR (cells p s 0) * s) * ((INR (cells p s 1) * s) * (INR (cells p s 2) * s))); [|right; ring]. rewrite !Rmult_1_r. apply Rmult_le_compat; try lra; [apply Rmult_le_pos; lra|]. apply Rmult_le_compat; lra.
  Qed.

Lemma in_shape_spec : forall G, two_or_three G -> forall (p : Par R) crop d x, in_shape crop (Lx p) (Lz p) d x = true <-> shape p crop d x.
Proof.
  intros G HG p crop d x. unfold in_shape, shape. rewrite ?nofZ_R. destruct HG as [-> | ->]; cbn [dim Geo2 Geo3].
  - destruct (Z.eqb_spec crop 1) as [->|N]; [|split; auto; intros _ E; contradiction]. rewrite ?nofZ_R. numR.
    destruct (Rltb_spec (vget x 1) (5 / 100 + 100 * (vget x 0 - Lx p) * (vget x 0 - Lx p) - 1 / 2 * d)) as [L|L]; unfold Rsqr; split; intros H; try discriminate; auto; try (intros; lra).
    exfalso. specialize (H eq_refl). lra.
  - destruct (Z.eqb_spec crop 1) as [->|N].
    + rewrite ?nofZ_R. numR. match goal with |- context [Rltb ?a ?b] => destruct (Rltb_spec a b) as [L|L] end; unfold Rsqr; split; intros H; try discriminate; auto; [split; intros; [auto|discriminate]|].
      exfalso. destruct H as (H & _). specialize (H eq_refl). lra.
    + destruct (Z.eqb_spec crop 2) as [->|N2]; [|split; auto; intros _; split; intros; contradiction].
      rewrite ?nofZ_R. numR. match goal with |- context [Rltb ?a ?b] => destruct (Rltb_spec a b) as [L|L] end; unfold Rsqr; split; intros H; try discriminate; auto; [split; intros; [contradiction|auto]|].
      exfalso. destruct H as (_ & H). specialize (H eq_refl). lra.
Qed.
Lemma place_pristine : forall G, two_or_three G -> forall xs, pristine (place xs) (length xs) /\ p_x (place xs) = xs.
Proof.
  intros G HG xs. unfold place, new_particles. cbn [p_x p_v p_pic p_flip p_hist p_F p_B p_tau]. split; [|reflexivity].
  split; [constructor; cbn; rewrite ?repeat_length; reflexivity|]. cbn [p_x p_v p_pic p_flip p_hist p_F p_B p_tau].
  repeat split; intros y Hy; apply repeat_spec in Hy; auto. rewrite Hy. unfold zero_hist. rewrite ?nofZ_R. reflexivity.
Qed.

(** [s] to the power of the dimension. *)
Definition pow_dim {G : Geo R} (s : R) : R := fold_right Rmult 1 (map (fun _ => s) (seq 0 dim)).
Lemma spacing_pow : forall G, two_or_three G -> forall (p : Par R) ppc, 0 < dx p -> 0 < ppc -> 0 < spacing p ppc /\ ppc * pow_dim (spacing p ppc) = pow_dim (dx p).
Proof.
  intros G HG p ppc Hd Hp. unfold spacing, pow_dim. destruct HG as [-> | ->]; cbn [dim Geo2 Geo3 seq map fold_right]; numR.
  - pose proof (sqrt_lt_R0 ppc Hp) as S. split; [apply Rdiv_lt_0_compat; auto|]. rewrite <- (sqrt_sqrt ppc) at 1 by lra. field. lra.
  - pose proof (Rcbrt_pos ppc Hp) as S. split; [apply Rdiv_lt_0_compat; auto|]. rewrite <- (Rcbrt_cube ppc Hp) at 1. field. lra.
Qed.
Lemma filter_nodup : forall X f (l : list X), NoDup l -> NoDup (filter f l).
Proof. intros. now apply NoDup_filter. Qed.
Lemma filter_true : forall X f (l : list X), (forall x, f x = true) -> filter f l = l.
Proof. intros X f l H. induction l as [|a l IH]; cbn; auto. now rewrite H, IH. Qed.

(** ** C48 *)
Theorem C48_regular_sampling : forall G, two_or_three G -> forall (p : Par R) ppc crop, 0 < dx p -> 0 < ppc ->
  let s := spacing p ppc in
  (forall k, (k < dim)%nat -> 0 <= side p k < 2147483648 * s) ->
  exists sm, regularSample p ppc crop = Ok sm /\ let P := sa_p sm in
    0 < s /\ ppc * pow_dim s = pow_dim (dx p) /\
    (** one particle at each cell centre inside the shape *)
    (forall x, In x (p_x P) <-> cell_centre p s x /\ shape p crop (dx p) x) /\
    (forall i j x y, i <> j -> nth_error (p_x P) i = Some x -> nth_error (p_x P) j = Some y -> s <= distance x y) /\
    (forall x k, In x (p_x P) -> (k < dim)%nat -> 0 < vget x k < side p k) /\
    sa_dx sm = dx p /\ sa_vol sm = pow_dim s /\ sa_mass sm = rho p * pow_dim s /\
    pristine P (length (p_x P)) /\
    INR (length (p_x P)) * sa_vol sm <= box_volume p /\
    (crop = 0%Z -> (forall k, (k < dim)%nat -> s <= side p k) -> inner_volume p s <= INR (length (p_x P)) * sa_vol sm).
Proof.
  intros G HG p ppc crop Hd Hp s Hb. destruct (spacing_pow G HG p ppc Hd Hp) as (Hs & Hpow). fold s in Hs, Hpow.
  destruct (points_spec G HG p s Hs Hb) as (pts & E & In_pts & ND & Len). destruct (volume_bounds G HG p s Hs Hb) as (V1 & V2).
  rewrite <- Len in V1, V2. fold (pow_dim s) in V1, V2. set (f := in_shape crop (Lx p) (Lz p) (dx p)).
  assert (Ev : forall r, match dim with 2%nat => r * r | _ => r * r * r end = pow_dim r) by (clear -HG; unfold pow_dim; destruct HG as [-> | ->]; intros r; cbn; ring).
  unfold regularSample. fold s. rewrite E. cbn [bind]. numR. rewrite Ev. fold f. eexists. split; [reflexivity|]. cbv zeta. cbn [sa_p sa_dx sa_vol sa_mass].
  destruct (place_pristine G HG (filter f pts)) as (Pr & ->).
  assert (Q : forall x, In x (filter f pts) <-> cell_centre p s x /\ shape p crop (dx p) x).
  { intros x. rewrite filter_In, In_pts. unfold f. rewrite (in_shape_spec G HG p). reflexivity. }
  split; [exact Hs|]. split; [exact Hpow|]. split; [exact Q|]. split; [|split; [|split; [reflexivity|split; [reflexivity|split; [reflexivity|split; [exact Pr|split]]]]]].
  - intros i j x y Nij Hx Hy. assert (Ix := nth_error_In _ _ Hx). assert (Iy := nth_error_In _ _ Hy). apply Q in Ix, Iy. apply (centres_apart G HG p s Hs); [apply Ix|apply Iy|].
    intros ->. apply Nij. apply (proj1 (NoDup_nth_error (filter f pts)) (filter_nodup _ f _ ND)); [apply nth_error_Some; congruence|congruence].
  - intros x k Hx Hk. apply Q in Hx. apply (centre_in_box G p s Hs x); [apply Hx|auto].
  - apply Rle_trans with (2 := V1). apply Rmult_le_compat_r.
    + clearbody s. unfold pow_dim. clear -Hs HG. destruct HG as [-> | ->]; cbn; [apply Rlt_le, Rmult_lt_0_compat; [auto|lra]|]. assert (0 < s * 1) by lra. repeat apply Rmult_le_pos; lra.
    + apply le_INR. clear. induction pts as [|a l IH]; cbn; [lia|]. destruct (f a); cbn; lia.
  - intros -> Hl. rewrite filter_true; [auto|]. intros x. unfold f. apply (in_shape_spec G HG p). unfold shape. clear. destruct dim as [|[|[|]]]; try (split; intros; discriminate). intros; discriminate.
Qed.
Print Assumptions C48_regular_sampling.

(** ** C49 *)
Theorem C49_random_sampling : forall G, two_or_three G -> forall (p : Par R) ppc crop (samples : list TV),
  0 < ppc -> samples <> [] -> (forall k, (k < dim)%nat -> 0 < side p k) ->
  let sm := sample p ppc crop samples in let P := sa_p sm in
  INR (length samples) * sa_vol sm = box_volume p /\
  0 < sa_dx sm /\ ppc * sa_vol sm = pow_dim (sa_dx sm) /\
  sa_mass sm = rho p * sa_vol sm /\
  (forall x, In x (p_x P) <-> In x samples /\ shape p crop (sa_dx sm) x) /\
  (crop = 0%Z -> p_x P = samples) /\
  pristine P (length (p_x P)) /\
  (forall crop', sa_vol (sample p ppc crop' samples) = sa_vol sm /\ sa_dx (sample p ppc crop' samples) = sa_dx sm).
Proof.
  intros G HG p ppc crop samples Hp Hn Hb. cbv zeta. unfold sample. cbn [sa_p sa_dx sa_vol sa_mass].
  assert (HN : 0 < INR (length samples)) by (apply lt_0_INR; destruct samples; [contradiction|cbn; lia]).
  rewrite !nofZ_R, <- INR_IZR_INZ. numR.
  set (d := match dim with 2%nat => sqrt (ppc / INR (length samples) * Lx p * Ly p) | _ => Rcbrt (ppc / INR (length samples) * Lx p * Ly p * Lz p) end).
  set (v := match dim with 2%nat => d * d / ppc | _ => d * d * d / ppc end).
  assert (HX : 0 < d /\ INR (length samples) * v = box_volume p /\ ppc * v = pow_dim d).
  { clear Hn. unfold v, d, pow_dim, box_volume. destruct HG as [-> | ->]; cbn [dim Geo2 Geo3 seq map fold_right side] in *.
    - pose proof (Hb 0%nat ltac:(lia)) as X. pose proof (Hb 1%nat ltac:(lia)) as Y. cbn [side] in X, Y.
      assert (Q : 0 < ppc / INR (length samples) * Lx p * Ly p) by (repeat apply Rmult_lt_0_compat; auto; now apply Rinv_0_lt_compat).
      split; [now apply sqrt_lt_R0|]. rewrite !sqrt_sqrt by lra. split; field_simplify; try lra. rewrite <- Rsqr_pow2, Rsqr_sqrt by lra. field. lra.
    - pose proof (Hb 0%nat ltac:(lia)) as X. pose proof (Hb 1%nat ltac:(lia)) as Y. pose proof (Hb 2%nat ltac:(lia)) as Z. cbn [side] in X, Y, Z.
      assert (Q : 0 < ppc / INR (length samples) * Lx p * Ly p * Lz p) by (repeat apply Rmult_lt_0_compat; auto; now apply Rinv_0_lt_compat).
      split; [now apply Rcbrt_pos|]. rewrite !Rcbrt_cube by auto. split; [field; lra|]. rewrite !Rmult_1_r, <- !Rmult_assoc, Rcbrt_cube by auto. field. lra. }
  destruct HX as (Dpos & V1 & V2). split; [exact V1|]. split; [exact Dpos|]. split; [exact V2|]. split; [reflexivity|].
  set (f := in_shape crop (Lx p) (Lz p) d). destruct (place_pristine G HG (filter f samples)) as (Pr & ->). split; [|split; [|split; [exact Pr|intros; split; reflexivity]]].
  - intros x. rewrite filter_In. unfold f. rewrite (in_shape_spec G HG p). reflexivity.
  - intros ->. apply filter_true. intros x. unfold f. apply (in_shape_spec G HG p). unfold shape. clear. destruct dim as [|[|[|]]]; try (split; intros; discriminate). intros; discriminate.
Qed.
Print Assumptions C49_random_sampling.

(** Meeting the hypotheses: four particles per cell of side 1/2 in the unit box; a particle sits at (1/8, 1/8). *)
Example C48_ex : let p := @ex_std (Geo2 R) Deg2 (1/2) in
  spacing p 4 = 1/4 /\ (forall k, (k < 2)%nat -> 0 <= side p k < 2147483648 * spacing p 4) /\
  exists sm, regularSample p 4 0 = Ok sm /\ sa_vol sm = 1/16 /\ In (mkV2 (1/8) (1/8)) (p_x (sa_p sm)) /\ (9 <= length (p_x (sa_p sm)) <= 16)%nat.
Proof.
  cbv zeta. assert (S : @spacing R _ (Geo2 R) (ex_std Deg2 (1/2)) 4 = 1/4).
  { unfold spacing. cbn [dim Geo2 dx ex_std ex_par]. numR. replace (sqrt 4) with 2; [field|]. rewrite <- (sqrt_Rsqr 2) by lra. f_equal; unfold Rsqr; lra. }
  assert (B : forall k, (k < 2)%nat -> 0 <= side (@ex_std (Geo2 R) Deg2 (1/2)) k < 2147483648 * @spacing R _ (Geo2 R) (ex_std Deg2 (1/2)) 4).
  { intros [|[|k]] Hk; try lia; rewrite S; cbn; lra. }
  split; [exact S|]. split; [exact B|].
  destruct (C48_regular_sampling (Geo2 R) (or_introl eq_refl) (ex_std Deg2 (1/2)) 4 0 ltac:(cbn; lra) ltac:(lra) B) as (sm & E & H).
  exists sm. split; [exact E|]. cbv zeta in H. rewrite S in H. destruct H as (_ & _ & HI & _ & _ & _ & V & _ & _ & L1 & L2).
  assert (V' : sa_vol sm = 1/16) by (rewrite V; unfold pow_dim; cbn; field).
  split; [exact V'|]. split; [|split].
  - apply HI. split; [|unfold shape; cbn [dim Geo2]; intros; discriminate]. exists (fun _ => 0%nat). intros [|[|k]] Hk; cbn in Hk; try lia; cbn; lra.
  - apply INR_le. specialize (L2 eq_refl). rewrite V' in L2. assert (Q : inner_volume (@ex_std (Geo2 R) Deg2 (1/2)) (1/4) = 9/16) by (unfold inner_volume; cbn; field).
    rewrite Q in L2. assert (HL : forall k, (k < 2)%nat -> 1/4 <= side (@ex_std (Geo2 R) Deg2 (1/2)) k) by (intros [|[|k]] Hk; try lia; cbn; lra). specialize (L2 HL).
    replace (INR 9) with 9 by (cbn; ring). lra.
  - apply INR_le. rewrite V' in L1. assert (Q : box_volume (@ex_std (Geo2 R) Deg2 (1/2)) = 1) by (unfold box_volume; cbn; field). rewrite Q in L1.
    replace (INR 16) with 16 by (cbn; ring). lra.
Qed.
Example C49_ex : let p := @ex_std (Geo2 R) Deg2 1 in
  let sm := sample p 4 0 [mkV2 (1/3) (1/2); mkV2 (2/3) (1/5)] in
  sa_vol sm = 1/2 /\ sa_dx sm * sa_dx sm = 2 /\ length (p_x (sa_p sm)) = 2%nat.
Proof.
  cbv zeta. destruct (C49_random_sampling (Geo2 R) (or_introl eq_refl) (@ex_std (Geo2 R) Deg2 1) 4 0 [mkV2 (1/3) (1/2); mkV2 (2/3) (1/5)]) as (V & D & E & _ & _ & P & _).
  - lra.
  - discriminate.
  - intros [|[|k]] Hk; cbn in Hk; try lia; cbn; lra.
  - rewrite (P eq_refl). unfold box_volume in V. unfold pow_dim in E. cbn [dim Geo2 seq map fold_right side length INR] in V, E. cbn [Lx Ly ex_std ex_par] in V. split; [lra|]. split; [lra|reflexivity].
Qed.
