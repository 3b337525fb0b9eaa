(** * LinProofs: laws of the vector and matrix operations over the reals, in 2D and 3D. *)
From Coq Require Import Reals ZArith Lra Lia List Bool Permutation.
From Verif Require Import Num NumR Lin Spec.
Import ListNotations.
Local Open Scope R_scope.

Class GeoLaws (G : Geo R) : Prop := {
  gl_dim : dim = 2%nat \/ dim = 3%nat;
  vget_tab : forall f k, (k < dim)%nat -> vget (vtab f) k = f k;
  vext : forall u v : TV, (forall k, (k < dim)%nat -> vget u k = vget v k) -> u = v;
  mget_tab : forall f i j, (i < dim)%nat -> (j < dim)%nat -> mget (mtab f) i j = f i j;
  mext : forall u v : TM, (forall i j, (i < dim)%nat -> (j < dim)%nat -> mget u i j = mget v i j) -> u = v
}.

Lemma geolaws : forall G, two_or_three G -> GeoLaws G.
Proof.
  intros G [H|H]; subst G.
  - split; try (now left).
    + intros f k Hk. destruct k as [|[|k]]; try reflexivity. simpl in Hk. lia.
    + intros [a b] [c d] H. f_equal; [apply (H 0%nat)|apply (H 1%nat)]; simpl; lia.
    + intros f i j Hi Hj. simpl in Hi, Hj.
      destruct i as [|[|i]]; destruct j as [|[|j]]; try reflexivity; lia.
    + intros [a b c d] [a' b' c' d'] H.
      f_equal; [apply (H 0%nat 0%nat)|apply (H 0%nat 1%nat)|apply (H 1%nat 0%nat)|apply (H 1%nat 1%nat)]; simpl; lia.
  - split; try (now right).
    + intros f k Hk. destruct k as [|[|[|k]]]; try reflexivity. simpl in Hk. lia.
    + intros [a b c] [a' b' c'] H.
      f_equal; [apply (H 0%nat)|apply (H 1%nat)|apply (H 2%nat)]; simpl; lia.
    + intros f i j Hi Hj. simpl in Hi, Hj.
      destruct i as [|[|[|i]]]; destruct j as [|[|[|j]]]; try reflexivity; lia.
    + intros [[a b c] [d e f] [g h i]] [[a' b' c'] [d' e' f'] [g' h' i']] H.
      f_equal; f_equal;
      [apply (H 0%nat 0%nat)|apply (H 0%nat 1%nat)|apply (H 0%nat 2%nat)
      |apply (H 1%nat 0%nat)|apply (H 1%nat 1%nat)|apply (H 1%nat 2%nat)
      |apply (H 2%nat 0%nat)|apply (H 2%nat 1%nat)|apply (H 2%nat 2%nat)]; simpl; lia.
Qed.
#[global] Instance geolaws2 : GeoLaws (Geo2 R) := geolaws _ (or_introl eq_refl).
#[global] Instance geolaws3 : GeoLaws (Geo3 R) := geolaws _ (or_intror eq_refl).

(** ** Sums over lists *)
Section Rsum.
  Context {X Y : Type}.
  Implicit Types (f g : X -> R) (l : list X).
  Lemma Rsum_app : forall f l1 l2, Rsum f (l1 ++ l2) = Rsum f l1 + Rsum f l2.
  Proof. induction l1; intros; simpl; [lra | rewrite IHl1; lra]. Qed.
  Lemma Rsum_ext : forall f g l, (forall x, In x l -> f x = g x) -> Rsum f l = Rsum g l.
  Proof. induction l; intros; simpl; auto. rewrite H by now left. rewrite IHl; auto. intros; apply H; now right. Qed.
  Lemma Rsum_plus : forall f g l, Rsum (fun x => f x + g x) l = Rsum f l + Rsum g l.
  Proof. induction l; simpl; lra. Qed.
  Lemma Rsum_minus : forall f g l, Rsum (fun x => f x - g x) l = Rsum f l - Rsum g l.
  Proof. induction l; simpl; lra. Qed.
  Lemma Rsum_scal : forall c f l, Rsum (fun x => c * f x) l = c * Rsum f l.
  Proof. induction l; simpl; [lra | rewrite IHl; lra]. Qed.
  Lemma Rsum_scalr : forall c f l, Rsum (fun x => f x * c) l = Rsum f l * c.
  Proof. induction l; simpl; [lra | rewrite IHl; lra]. Qed.
  Lemma Rsum_opp : forall f l, Rsum (fun x => - f x) l = - Rsum f l.
  Proof. induction l; simpl; lra. Qed.
  Lemma Rsum_0 : forall l, Rsum (fun _ : X => 0) l = 0.
  Proof. induction l; simpl; lra. Qed.
  Lemma Rsum_const : forall c l, Rsum (fun _ : X => c) l = INR (length l) * c.
  Proof. induction l; [simpl; lra|]. cbn [Rsum length]. rewrite IHl, S_INR. lra. Qed.
  Lemma Rsum_zero : forall f l, (forall x, In x l -> f x = 0) -> Rsum f l = 0.
  Proof. intros. rewrite (Rsum_ext f (fun _ => 0)); auto using Rsum_0. Qed.
  Lemma Rsum_nonneg : forall f l, (forall x, In x l -> 0 <= f x) -> 0 <= Rsum f l.
  Proof. induction l; simpl; intros; [lra|]. pose proof (H a (or_introl eq_refl)). assert (0 <= Rsum f l) by auto. lra. Qed.
  Lemma Rsum_le : forall f g l, (forall x, In x l -> f x <= g x) -> Rsum f l <= Rsum g l.
  Proof. induction l; simpl; intros; [lra|]. pose proof (H a (or_introl eq_refl)). assert (Rsum f l <= Rsum g l) by auto. lra. Qed.
  Lemma Rsum_perm : forall f l l', Permutation l l' -> Rsum f l = Rsum f l'.
  Proof. induction 1; simpl; lra. Qed.
  Lemma Rsum_ge_one : forall f l x, (forall y, In y l -> 0 <= f y) -> In x l -> f x <= Rsum f l.
  Proof.
    induction l; simpl; intros x H Hi; [tauto|]. destruct Hi as [->|Hi].
    - assert (0 <= Rsum f l) by (apply Rsum_nonneg; auto). lra.
    - pose proof (H a (or_introl eq_refl)). assert (f x <= Rsum f l) by auto. lra.
  Qed.
  Lemma Rsum_nonneg_0 : forall f l, (forall x, In x l -> 0 <= f x) -> Rsum f l = 0 -> forall x, In x l -> f x = 0.
  Proof. intros f l H H0 x Hi. pose proof (Rsum_ge_one f l x H Hi). pose proof (H x Hi). lra. Qed.
  Lemma Rabs_Rsum : forall f l, Rabs (Rsum f l) <= Rsum (fun x => Rabs (f x)) l.
  Proof. induction l; simpl; [rewrite Rabs_R0; lra|]. eapply Rle_trans; [apply Rabs_triang|]. lra. Qed.
End Rsum.

Lemma Rsum_map : forall X Y (h : X -> Y) f l, Rsum f (map h l) = Rsum (fun x => f (h x)) l.
Proof. induction l; simpl; congruence. Qed.
Lemma Rsum_flat_map : forall X Y (h : X -> list Y) f l, Rsum f (flat_map h l) = Rsum (fun x => Rsum f (h x)) l.
Proof. induction l; simpl; auto. rewrite Rsum_app, IHl; auto. Qed.
Lemma Rsum_concat : forall X f (l : list (list X)), Rsum f (concat l) = Rsum (fun x => Rsum f x) l.
Proof. induction l; simpl; auto. rewrite Rsum_app, IHl; auto. Qed.
Lemma Rsum_swap : forall X Y (f : X -> Y -> R) l m,
  Rsum (fun x => Rsum (f x) m) l = Rsum (fun y => Rsum (fun x => f x y) l) m.
Proof.
  induction l; intros; simpl.
  - now rewrite Rsum_0.
  - rewrite IHl. now rewrite <- Rsum_plus.
Qed.
Lemma Rsum_prod : forall X Y (f : X -> R) (g : Y -> R) l m,
  Rsum (fun x => Rsum (fun y => f x * g y) m) l = Rsum f l * Rsum g m.
Proof. intros. rewrite (Rsum_ext _ (fun x => f x * Rsum g m)) by (intros; apply Rsum_scal). apply Rsum_scalr. Qed.
(** Picking one index out of [0..n). *)
Lemma Rsum_seq_pick : forall n s k c, (s <= k < s + n)%nat ->
  Rsum (fun j => if Nat.eqb k j then c else 0) (seq s n) = c.
Proof.
  induction n; intros s k c H; [lia|]. simpl. destruct (Nat.eqb_spec k s) as [E|E].
  - rewrite Rsum_zero; [lra|]. intros j Hj. apply in_seq in Hj. destruct (Nat.eqb_spec k j); auto; lia.
  - rewrite IHn by lia. lra.
Qed.
Lemma Rsum_filter : forall X (P : X -> bool) f l,
  Rsum f (filter P l) = Rsum (fun x => if P x then f x else 0) l.
Proof. induction l; simpl; auto. destruct (P a); simpl; rewrite IHl; lra. Qed.

Lemma Rsum_nsum : forall (l : list R), nsum l = Rsum (fun x => x) l.
Proof.
  intros. unfold nsum. rewrite nofZ_R.
  assert (H : forall l a, fold_left (nadd (A:=R)) l a = a + Rsum (fun x => x) l).
  { induction l0; intros; simpl; [lra|]. rewrite IHl0. numR. lra. }
  rewrite H. lra.
Qed.

(** ** sumd *)
Section Lin.
  Context {G : Geo R} {GL : GeoLaws G}.

  Lemma dim_pos : (0 < dim)%nat. Proof. destruct gl_dim as [H|H]; rewrite H; lia. Qed.
  Lemma dim_1 : (1 < dim)%nat. Proof. destruct gl_dim as [H|H]; rewrite H; lia. Qed.

  Lemma sumto_Rsum : forall n f, sumto n f = Rsum f (seq 0 (S n)).
  Proof.
    induction n; intros; cbn [sumto]; [simpl; lra|].
    rewrite IHn, (seq_S (S n) 0), Rsum_app. simpl. numR. lra.
  Qed.
  Lemma sumd_Rsum : forall f, sumd f = Rsum f (seq 0 dim).
  Proof. intros; unfold sumd. rewrite sumto_Rsum. do 2 f_equal. destruct gl_dim as [H|H]; rewrite H; auto. Qed.
  Lemma sumd_ext : forall f g, (forall k, (k < dim)%nat -> f k = g k) -> sumd f = sumd g.
  Proof. intros; rewrite !sumd_Rsum. apply Rsum_ext. intros k Hk; apply in_seq in Hk; apply H; lia. Qed.
  Lemma sumd_plus : forall f g, sumd (fun k => f k + g k) = sumd f + sumd g.
  Proof. intros; rewrite !sumd_Rsum; apply Rsum_plus. Qed.
  Lemma sumd_minus : forall f g, sumd (fun k => f k - g k) = sumd f - sumd g.
  Proof. intros; rewrite !sumd_Rsum; apply Rsum_minus. Qed.
  Lemma sumd_scal : forall c f, sumd (fun k => c * f k) = c * sumd f.
  Proof. intros; rewrite !sumd_Rsum; apply Rsum_scal. Qed.
  Lemma sumd_scalr : forall c f, sumd (fun k => f k * c) = sumd f * c.
  Proof. intros; rewrite !sumd_Rsum; apply Rsum_scalr. Qed.
  Lemma sumd_0 : sumd (fun _ => 0) = 0.
  Proof. rewrite sumd_Rsum; apply Rsum_0. Qed.
  Lemma sumd_zero : forall f, (forall k, (k < dim)%nat -> f k = 0) -> sumd f = 0.
  Proof. intros. rewrite (sumd_ext f (fun _ => 0)); auto using sumd_0. Qed.
  Lemma sumd_nonneg : forall f, (forall k, (k < dim)%nat -> 0 <= f k) -> 0 <= sumd f.
  Proof. intros; rewrite sumd_Rsum; apply Rsum_nonneg. intros k Hk; apply in_seq in Hk; apply H; lia. Qed.
  Lemma sumd_le : forall f g, (forall k, (k < dim)%nat -> f k <= g k) -> sumd f <= sumd g.
  Proof. intros; rewrite !sumd_Rsum; apply Rsum_le. intros k Hk; apply in_seq in Hk; apply H; lia. Qed.
  Lemma sumd_ge_one : forall f k, (forall k, (k < dim)%nat -> 0 <= f k) -> (k < dim)%nat -> f k <= sumd f.
  Proof.
    intros; rewrite sumd_Rsum. apply Rsum_ge_one.
    - intros y Hy; apply in_seq in Hy; apply H; lia.
    - apply in_seq; lia.
  Qed.
  Lemma sumd_pick : forall f k, (k < dim)%nat -> sumd (fun j => if Nat.eqb k j then f j else 0) = f k.
  Proof.
    intros; rewrite sumd_Rsum.
    rewrite (Rsum_ext _ (fun j => if Nat.eqb k j then f k else 0)).
    - apply Rsum_seq_pick; lia.
    - intros j _. destruct (Nat.eqb_spec k j); subst; auto.
  Qed.
  Lemma sumd_swap : forall f, sumd (fun i => sumd (fun j => f i j)) = sumd (fun j => sumd (fun i => f i j)).
  Proof.
    intros. rewrite !sumd_Rsum.
    rewrite (Rsum_ext _ (fun i => Rsum (f i) (seq 0 dim))) by (intros; apply sumd_Rsum).
    rewrite Rsum_swap. apply Rsum_ext; intros; symmetry; apply sumd_Rsum.
  Qed.
  Lemma sumd_Rsum_swap : forall X (f : nat -> X -> R) (l : list X),
    sumd (fun k => Rsum (f k) l) = Rsum (fun x => sumd (fun k => f k x)) l.
  Proof.
    intros. rewrite sumd_Rsum, Rsum_swap. apply Rsum_ext; intros; symmetry; apply sumd_Rsum.
  Qed.

  (** ** Components *)
  Lemma vget_zero : forall k, (k < dim)%nat -> vget vzero k = 0.
  Proof. intros; unfold vzero; rewrite vget_tab, nofZ_R; auto. Qed.
  Lemma vget_add : forall u v k, (k < dim)%nat -> vget (vadd u v) k = vget u k + vget v k.
  Proof. intros; unfold vadd; rewrite vget_tab; auto. Qed.
  Lemma vget_sub : forall u v k, (k < dim)%nat -> vget (vsub u v) k = vget u k - vget v k.
  Proof. intros; unfold vsub; rewrite vget_tab; auto. Qed.
  Lemma vget_scale : forall v s k, (k < dim)%nat -> vget (vscale v s) k = vget v k * s.
  Proof. intros; unfold vscale; rewrite vget_tab; auto. Qed.
  Lemma vget_lscale : forall v s k, (k < dim)%nat -> vget (lscale s v) k = s * vget v k.
  Proof. intros; unfold lscale; rewrite vget_tab; auto. Qed.
  Lemma vget_divs : forall v s k, (k < dim)%nat -> vget (vdivs v s) k = vget v k / s.
  Proof. intros; unfold vdivs; rewrite vget_tab; auto. Qed.
  Lemma vget_map : forall f v k, (k < dim)%nat -> vget (vmap f v) k = f (vget v k).
  Proof. intros; unfold vmap; rewrite vget_tab; auto. Qed.
  Lemma vget_set : forall v i a k, (k < dim)%nat -> vget (vset v i a) k = if Nat.eqb k i then a else vget v k.
  Proof. intros; unfold vset; rewrite vget_tab; auto. Qed.
  Lemma vget_mvec : forall a v k, (k < dim)%nat -> vget (mvec a v) k = sumd (fun j => mget a k j * vget v j).
  Proof. intros; unfold mvec; rewrite vget_tab; auto. Qed.
  Lemma mget_zero : forall i j, (i < dim)%nat -> (j < dim)%nat -> mget mzero i j = 0.
  Proof. intros; unfold mzero; rewrite mget_tab, nofZ_R; auto. Qed.
  Lemma mget_ident : forall i j, (i < dim)%nat -> (j < dim)%nat -> mget mident i j = if Nat.eqb i j then 1 else 0.
  Proof. intros; unfold mident; rewrite mget_tab, !nofZ_R; auto. Qed.
  Lemma mget_add : forall a b i j, (i < dim)%nat -> (j < dim)%nat -> mget (madd a b) i j = mget a i j + mget b i j.
  Proof. intros; unfold madd; rewrite mget_tab; auto. Qed.
  Lemma mget_sub : forall a b i j, (i < dim)%nat -> (j < dim)%nat -> mget (msub a b) i j = mget a i j - mget b i j.
  Proof. intros; unfold msub; rewrite mget_tab; auto. Qed.
  Lemma mget_scale : forall a s i j, (i < dim)%nat -> (j < dim)%nat -> mget (mscale a s) i j = mget a i j * s.
  Proof. intros; unfold mscale; rewrite mget_tab; auto. Qed.
  Lemma mget_lscale : forall a s i j, (i < dim)%nat -> (j < dim)%nat -> mget (mlscale s a) i j = s * mget a i j.
  Proof. intros; unfold mlscale; rewrite mget_tab; auto. Qed.
  Lemma mget_divs : forall a s i j, (i < dim)%nat -> (j < dim)%nat -> mget (mdivs a s) i j = mget a i j / s.
  Proof. intros; unfold mdivs; rewrite mget_tab; auto. Qed.
  Lemma mget_mul : forall a b i j, (i < dim)%nat -> (j < dim)%nat -> mget (mmul a b) i j = sumd (fun k => mget a i k * mget b k j).
  Proof. intros; unfold mmul; rewrite mget_tab; auto. Qed.
  Lemma mget_tr : forall a i j, (i < dim)%nat -> (j < dim)%nat -> mget (mtr a) i j = mget a j i.
  Proof. intros; unfold mtr; rewrite mget_tab; auto. Qed.
  Lemma mget_outer : forall u v i j, (i < dim)%nat -> (j < dim)%nat -> mget (mouter u v) i j = vget u i * vget v j.
  Proof. intros; unfold mouter; rewrite mget_tab; auto. Qed.
  Lemma mget_diag : forall v i j, (i < dim)%nat -> (j < dim)%nat -> mget (mdiag v) i j = if Nat.eqb i j then vget v i else 0.
  Proof. intros; unfold mdiag; rewrite mget_tab, nofZ_R; auto. Qed.
End Lin.

#[global] Hint Rewrite @vget_zero @vget_add @vget_sub @vget_scale @vget_lscale @vget_divs @vget_map
  @vget_set @vget_mvec @mget_zero @mget_ident @mget_add @mget_sub @mget_scale @mget_lscale @mget_divs
  @mget_mul @mget_tr @mget_outer @mget_diag using (auto using dim_pos, dim_1) : geo.

Section Lin2.
  Context {G : Geo R} {GL : GeoLaws G}.

  Ltac vx := apply vext; intros k Hk; autorewrite with geo.
  Ltac mx := apply mext; intros i j Hi Hj; autorewrite with geo.

  Lemma vadd_comm : forall u v, vadd u v = vadd v u. Proof. intros; vx; lra. Qed.
  Lemma vadd_assoc : forall u v w, vadd (vadd u v) w = vadd u (vadd v w). Proof. intros; vx; lra. Qed.
  Lemma vadd_0_l : forall u, vadd vzero u = u. Proof. intros; vx; lra. Qed.
  Lemma vadd_0_r : forall u, vadd u vzero = u. Proof. intros; vx; lra. Qed.
  Lemma vsub_0_r : forall u, vsub u vzero = u. Proof. intros; vx; lra. Qed.
  Lemma vsub_diag : forall u, vsub u u = vzero. Proof. intros; vx; lra. Qed.
  Lemma madd_comm : forall u v, madd u v = madd v u. Proof. intros; mx; lra. Qed.
  Lemma madd_assoc : forall u v w, madd (madd u v) w = madd u (madd v w). Proof. intros; mx; lra. Qed.
  Lemma madd_0_l : forall u, madd mzero u = u. Proof. intros; mx; lra. Qed.
  Lemma madd_0_r : forall u, madd u mzero = u. Proof. intros; mx; lra. Qed.

  Lemma mmul_assoc : forall a b c, mmul (mmul a b) c = mmul a (mmul b c).
  Proof.
    intros; mx.
    rewrite (sumd_ext _ (fun k => sumd (fun l => mget a i l * mget b l k * mget c k j))).
    2: { intros k Hk. autorewrite with geo. now rewrite <- sumd_scalr. }
    rewrite sumd_swap. apply sumd_ext. intros k Hk. autorewrite with geo.
    rewrite <- sumd_scal. apply sumd_ext. intros; ring.
  Qed.
  Lemma mmul_id_l : forall a, mmul mident a = a.
  Proof.
    intros; mx. rewrite (sumd_ext _ (fun k => if Nat.eqb i k then mget a k j else 0)).
    - now rewrite sumd_pick.
    - intros k Hk. autorewrite with geo. destruct (Nat.eqb i k); lra.
  Qed.
  Lemma mmul_id_r : forall a, mmul a mident = a.
  Proof.
    intros; mx. rewrite (sumd_ext _ (fun k => if Nat.eqb j k then mget a i k else 0)).
    - now rewrite sumd_pick.
    - intros k Hk. autorewrite with geo. rewrite Nat.eqb_sym. destruct (Nat.eqb j k); lra.
  Qed.
  Lemma mmul_0_l : forall a, mmul mzero a = mzero.
  Proof. intros; mx. apply sumd_zero. intros; autorewrite with geo; lra. Qed.
  Lemma mmul_0_r : forall a, mmul a mzero = mzero.
  Proof. intros; mx. apply sumd_zero. intros; autorewrite with geo; lra. Qed.
  Lemma mmul_add_l : forall a b c, mmul (madd a b) c = madd (mmul a c) (mmul b c).
  Proof. intros; mx. rewrite <- sumd_plus. apply sumd_ext; intros; autorewrite with geo; ring. Qed.
  Lemma mmul_add_r : forall a b c, mmul c (madd a b) = madd (mmul c a) (mmul c b).
  Proof. intros; mx. rewrite <- sumd_plus. apply sumd_ext; intros; autorewrite with geo; ring. Qed.
  Lemma mtr_mul : forall a b, mtr (mmul a b) = mmul (mtr b) (mtr a).
  Proof. intros; mx. apply sumd_ext; intros; autorewrite with geo; ring. Qed.
  Lemma mtr_tr : forall a, mtr (mtr a) = a.
  Proof. intros; mx; auto. Qed.
  Lemma mtr_ident : mtr mident = mident.
  Proof. mx. now rewrite Nat.eqb_sym. Qed.
  Lemma mtr_diag : forall v, mtr (mdiag v) = mdiag v.
  Proof. intros; mx. rewrite Nat.eqb_sym. destruct (Nat.eqb_spec i j); subst; auto. Qed.
  Lemma mtr_add : forall a b, mtr (madd a b) = madd (mtr a) (mtr b).
  Proof. intros; mx; auto. Qed.
  Lemma mvec_mul : forall a b v, mvec (mmul a b) v = mvec a (mvec b v).
  Proof.
    intros; vx.
    rewrite (sumd_ext _ (fun j => sumd (fun l => mget a k l * mget b l j * vget v j))).
    2: { intros j Hj. autorewrite with geo. now rewrite <- sumd_scalr. }
    rewrite sumd_swap. apply sumd_ext. intros j Hj. autorewrite with geo.
    rewrite <- sumd_scal. apply sumd_ext. intros; ring.
  Qed.
  Lemma mvec_id : forall v, mvec mident v = v.
  Proof.
    intros; vx. rewrite (sumd_ext _ (fun j => if Nat.eqb k j then vget v j else 0)).
    - now rewrite sumd_pick.
    - intros j Hj. autorewrite with geo. destruct (Nat.eqb k j); lra.
  Qed.
  Lemma mvec_add : forall a u v, mvec a (vadd u v) = vadd (mvec a u) (mvec a v).
  Proof. intros; vx. rewrite <- sumd_plus. apply sumd_ext; intros; autorewrite with geo; ring. Qed.
  Lemma mvec_0 : forall v, mvec mzero v = vzero.
  Proof. intros; vx. apply sumd_zero; intros; autorewrite with geo; ring. Qed.
  Lemma mvec_v0 : forall a, mvec a vzero = vzero.
  Proof. intros; vx. apply sumd_zero; intros; autorewrite with geo; ring. Qed.

  Lemma mtrace_add : forall a b, mtrace (madd a b) = mtrace a + mtrace b.
  Proof. intros; unfold mtrace; rewrite <- sumd_plus. apply sumd_ext; intros; autorewrite with geo; auto. Qed.
  Lemma mtrace_mul_comm : forall a b, mtrace (mmul a b) = mtrace (mmul b a).
  Proof.
    intros; unfold mtrace.
    rewrite (sumd_ext _ (fun i => sumd (fun j => mget a i j * mget b j i))) by (intros; now autorewrite with geo).
    rewrite sumd_swap. apply sumd_ext. intros; autorewrite with geo. apply sumd_ext; intros; ring.
  Qed.
  Lemma mtrace_diag : forall v, mtrace (mdiag v) = vsum v.
  Proof. intros; unfold mtrace, vsum. apply sumd_ext; intros; autorewrite with geo. now rewrite Nat.eqb_refl. Qed.
  Lemma mtrace_lscale : forall s a, mtrace (mlscale s a) = s * mtrace a.
  Proof. intros; unfold mtrace. rewrite <- sumd_scal. apply sumd_ext; intros; now autorewrite with geo. Qed.
  (** selfDoubleDot is the trace of A^T A. *)
  Lemma mdd_trace : forall a, mdd a = mtrace (mmul (mtr a) a).
  Proof.
    intros; unfold mdd, mtrace. rewrite sumd_swap. apply sumd_ext; intros.
    autorewrite with geo. apply sumd_ext; intros; autorewrite with geo; auto.
  Qed.

  Lemma vdot_comm : forall u v, vdot u v = vdot v u.
  Proof. intros; unfold vdot; apply sumd_ext; intros; numR; ring. Qed.
  Lemma vdot_add_l : forall u v w, vdot (vadd u v) w = vdot u w + vdot v w.
  Proof. intros; unfold vdot; rewrite <- sumd_plus; apply sumd_ext; intros; autorewrite with geo; numR; ring. Qed.
  Lemma vdot_sub_l : forall u v w, vdot (vsub u v) w = vdot u w - vdot v w.
  Proof. intros; unfold vdot; rewrite <- sumd_minus; apply sumd_ext; intros; autorewrite with geo; numR; ring. Qed.
  Lemma vdot_lscale_l : forall s u w, vdot (lscale s u) w = s * vdot u w.
  Proof. intros; unfold vdot; rewrite <- sumd_scal; apply sumd_ext; intros; autorewrite with geo; numR; ring. Qed.
  Lemma vdot_scale_l : forall s u w, vdot (vscale u s) w = s * vdot u w.
  Proof. intros; unfold vdot; rewrite <- sumd_scal; apply sumd_ext; intros; autorewrite with geo; numR; ring. Qed.
  Lemma vdot_divs_l : forall s u w, vdot (vdivs u s) w = vdot u w / s.
  Proof.
    intros; unfold vdot, Rdiv; rewrite <- sumd_scalr; apply sumd_ext; intros; autorewrite with geo; numR.
    unfold Rdiv; ring.
  Qed.
  Lemma vdot_zero_l : forall w, vdot vzero w = 0.
  Proof. intros; unfold vdot; apply sumd_zero; intros; autorewrite with geo; numR; ring. Qed.
  Lemma vdot_add_r : forall u v w, vdot w (vadd u v) = vdot w u + vdot w v.
  Proof. intros; rewrite !(vdot_comm w); apply vdot_add_l. Qed.
  Lemma vdot_sub_r : forall u v w, vdot w (vsub u v) = vdot w u - vdot w v.
  Proof. intros; rewrite !(vdot_comm w); apply vdot_sub_l. Qed.
  Lemma vdot_lscale_r : forall s u w, vdot w (lscale s u) = s * vdot w u.
  Proof. intros; rewrite !(vdot_comm w); apply vdot_lscale_l. Qed.
  Lemma vdot_scale_r : forall s u w, vdot w (vscale u s) = s * vdot w u.
  Proof. intros; rewrite !(vdot_comm w); apply vdot_scale_l. Qed.
  Lemma vdot_divs_r : forall s u w, vdot w (vdivs u s) = vdot w u / s.
  Proof. intros; rewrite !(vdot_comm w); apply vdot_divs_l. Qed.
  Lemma vdot_zero_r : forall w, vdot w vzero = 0.
  Proof. intros; rewrite vdot_comm; apply vdot_zero_l. Qed.

  Lemma vsqnorm_nonneg : forall v, 0 <= vsqnorm v.
  Proof. intros; unfold vsqnorm, vdot. apply sumd_nonneg; intros; numR. nra. Qed.
  Lemma vsqnorm_zero : vsqnorm vzero = 0.
  Proof. apply vdot_zero_l. Qed.
  Lemma vnorm_nonneg : forall v, 0 <= vnorm v.
  Proof. intros; unfold vnorm; numR; apply sqrt_pos. Qed.
  Lemma vnorm_sq : forall v, vnorm v * vnorm v = vsqnorm v.
  Proof. intros; unfold vnorm; numR; apply sqrt_sqrt, vsqnorm_nonneg. Qed.
  Lemma vsqnorm_0_eq : forall v, vsqnorm v = 0 -> v = vzero.
  Proof.
    intros v H; vx. assert (vget v k * vget v k <= 0).
    { rewrite <- H. unfold vsqnorm, vdot.
      apply (sumd_ge_one (fun k => vget v k * vget v k)); auto; intros; nra. }
    nra.
  Qed.
  Lemma vnorm_zero : vnorm vzero = 0.
  Proof. unfold vnorm; rewrite vsqnorm_zero; numR; apply sqrt_0. Qed.
  Lemma vnorm_comp : forall v k, (k < dim)%nat -> Rabs (vget v k) <= vnorm v.
  Proof.
    intros. apply Rsqr_incr_0; [|apply Rabs_pos|apply vnorm_nonneg].
    rewrite <- Rsqr_abs. unfold Rsqr. rewrite vnorm_sq.
    apply (sumd_ge_one (fun k => vget v k * vget v k)); auto; intros; nra.
  Qed.

  Lemma vscale_eq : forall u s, vscale u s = lscale s u.
  Proof. intros; vx; ring. Qed.

  (** Fold of vector additions. *)
  Lemma fold_vadd : forall X (f : X -> TV) l a k, (k < dim)%nat ->
    vget (fold_left (fun a x => vadd a (f x)) l a) k = vget a k + Rsum (fun x => vget (f x) k) l.
  Proof. induction l; intros; simpl; [lra|]. rewrite IHl by auto. autorewrite with geo. lra. Qed.
End Lin2.
Ltac vx := apply vext; intros ?k ?Hk; autorewrite with geo.
Ltac mx := apply mext; intros ?i ?j ?Hi ?Hj; autorewrite with geo.
