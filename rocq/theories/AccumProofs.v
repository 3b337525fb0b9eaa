(** * AccumProofs: accumulation of contributions into an array, sequentially, per thread, and in
    any order.  Used for particle-to-grid and for the MUSL re-projection. *)
From Coq Require Import Reals ZArith Lra Lia List Bool Permutation.
From Verif Require Import Num NumR Spec LinProofs ResProofs.
Import ListNotations.
Local Open Scope R_scope.

Lemma res_eq : forall X (a b : res X), a <> NoFuel -> b <> NoFuel -> (forall x, a = Ok x <-> b = Ok x) -> a = b.
Proof.
  intros X [x| |] [y| |] Ha Hb H; try congruence.
  - symmetry. apply H. reflexivity.
  - assert (C : UB = Ok x) by (apply H; reflexivity). discriminate C.
  - assert (C : UB = Ok y) by (apply H; reflexivity). discriminate C.
Qed.
Lemma bind_nf : forall X Y (r : res X) (f : X -> res Y), r <> NoFuel -> (forall x, r = Ok x -> f x <> NoFuel) -> bind r f <> NoFuel.
Proof. intros X Y [x| |] f Hr Hf; simpl; try congruence. apply Hf; auto. Qed.
Lemma foldM_nf : forall X S (f : S -> X -> res S) l s, (forall s x, In x l -> f s x <> NoFuel) -> foldM f l s <> NoFuel.
Proof.
  induction l; simpl; intros; [discriminate|]. apply bind_nf; [apply H; auto|]. intros s' _. apply IHl. auto.
Qed.
Lemma mapM_nf : forall X Y (f : X -> res Y) l, (forall x, In x l -> f x <> NoFuel) -> mapM f l <> NoFuel.
Proof.
  induction l; simpl; intros; [discriminate|]. apply bind_nf; [apply H; auto|]. intros y _.
  apply bind_nf; [apply IHl; auto|]. discriminate.
Qed.
Lemma rd_nf : forall X (l : list X) z, rd l z <> NoFuel.
Proof. intros X l z. destruct (rd_UB_or l z) as [[x ->]| ->]; discriminate. Qed.
Lemma upd_nf : forall X (l : list X) z f, upd l z f <> NoFuel.
Proof. intros. unfold upd. destruct (z <? 0)%Z; [discriminate|]. destruct (upd_nat l (Z.to_nat z) f); discriminate. Qed.
Lemma mapM_app : forall X Y (f : X -> res Y) l1 l2,
  mapM f (l1 ++ l2) = bind (mapM f l1) (fun a => bind (mapM f l2) (fun b => Ok (a ++ b))).
Proof.
  induction l1; simpl; intros.
  - destruct (mapM f l2); reflexivity.
  - destruct (f a); simpl; auto. rewrite IHl1. destruct (mapM f l1); simpl; auto. destruct (mapM f l2); reflexivity.
Qed.
Lemma mapM_perm : forall X Y (f : X -> res Y) l l' ys, Permutation l l' -> mapM f l = Ok ys ->
  exists ys', mapM f l' = Ok ys' /\ Permutation ys ys'.
Proof.
  intros X Y f l l' ys P. revert ys. induction P; intros ys H.
  - exists ys. auto.
  - simpl in H. invb. destruct (IHP _ E0) as (ys' & E' & P'). simpl. rewrite E, E'. simpl. eauto.
  - simpl in H. invb. simpl. rewrite E, E1, E2. simpl. eexists. split; [reflexivity|apply perm_swap].
  - destruct (IHP1 _ H) as (l1 & E1 & Q1). destruct (IHP2 _ E1) as (l2 & E2 & Q2). eexists; split; [eauto|]. etransitivity; eauto.
Qed.
Lemma perm_concat : forall X (a b : list (list X)), Permutation a b -> Permutation (concat a) (concat b).
Proof.
  induction 1; simpl; auto.
  - apply Permutation_app_head; auto.
  - rewrite !app_assoc. apply Permutation_app_tail, Permutation_app_comm.
  - etransitivity; eauto.
Qed.

Section Accum.
  Variable Nd I K : Type.
  Variable val : I -> Nd -> R.
  Variable keep : Nd -> K.
  Variable plus : Nd -> Nd -> Nd.
  Variable zero : Nd.
  Record AddLaws : Prop := {
    ad_val : forall c a b, val c (plus a b) = val c a + val c b;
    ad_keep : forall a b, keep (plus a b) = keep a;
    ad_zero : forall c, val c zero = 0;
    ad_ext : forall a b, (forall c, val c a = val c b) -> keep a = keep b -> a = b
  }.
  Hypothesis AL : AddLaws.

  Definition add_at (g : list Nd) (o : Z * Nd) : res (list Nd) := upd g (fst o) (fun a => plus a (snd o)).
  Definition adds (ops : list (Z * Nd)) (g : list Nd) : res (list Nd) := foldM add_at ops g.
  Definition at_j (j : nat) (c : I) (o : Z * Nd) : R := if (fst o =? Z.of_nat j)%Z then val c (snd o) else 0.
  Definition Acc (g : list Nd) (ops : list (Z * Nd)) (g' : list Nd) : Prop :=
    length g' = length g /\
    forall j a, nth_error g j = Some a -> exists a', nth_error g' j = Some a' /\ keep a' = keep a /\
      forall c, val c a' = val c a + Rsum (at_j j c) ops.

  Lemma adds_nf : forall ops g, adds ops g <> NoFuel.
  Proof. intros. apply foldM_nf. intros. apply upd_nf. Qed.
  Lemma adds_Ok : forall ops g g', adds ops g = Ok g' <->
    Forall (fun o => (0 <= fst o < Z.of_nat (length g))%Z) ops /\ Acc g ops g'.
  Proof.
    induction ops as [|o ops IH]; intros g g'; unfold adds; simpl.
    - split.
      + intros H. injection H as <-. split; auto. split; auto. intros j a Ha. exists a. simpl. split; auto. split; auto.
        intros; lra.
      + intros (_ & L & H). f_equal. apply nth_error_ext. intros j. destruct (nth_error g j) eqn:E.
        * destruct (H j n E) as (a' & E' & Kp & V). rewrite E'. f_equal. symmetry. apply (ad_ext AL); auto. intros c. rewrite V. simpl. lra.
        * symmetry. apply nth_error_None. rewrite L. apply nth_error_None; auto.
    - fold (adds ops). split.
      + intros H. invb. apply IH in H. destruct H as (F & L & H). unfold add_at in E. apply upd_inv in E.
        destruct E as (Rg & Lx & Hx). rewrite Lx in *. split; [constructor; auto|]. split; auto.
        intros j a Ha. specialize (Hx j). rewrite Ha in Hx. simpl in Hx.
        destruct (Nat.eqb_spec (Z.to_nat (fst o)) j) as [E|E].
        * destruct (H j _ Hx) as (a' & E' & Kp & V). exists a'. split; auto. rewrite Kp, (ad_keep AL). split; auto.
          intros c. rewrite V, (ad_val AL). cbn [Rsum]. unfold at_j at 2. destruct (Z.eqb_spec (fst o) (Z.of_nat j)); [lra|lia].
        * destruct (H j _ Hx) as (a' & E' & Kp & V). exists a'. split; auto. split; auto.
          intros c. rewrite V. cbn [Rsum]. unfold at_j at 2. destruct (Z.eqb_spec (fst o) (Z.of_nat j)); [lia|lra].
      + intros (F & L & H). inversion F as [|? ? F1 F2]; subst.
        destruct (upd_Ok g (fst o) (fun a => plus a (snd o)) F1) as (g1 & E1 & L1 & H1).
        unfold add_at at 1. rewrite E1. simpl. apply IH. rewrite L1. split; auto. split; [congruence|].
        intros j a Ha. rewrite H1 in Ha.
        destruct (nth_error g j) as [a0|] eqn:E0; [|destruct (Nat.eqb _ _); discriminate].
        destruct (H j a0 E0) as (a' & E' & Kp & V). exists a'. split; auto.
        destruct (Nat.eqb_spec (Z.to_nat (fst o)) j) as [E|E]; simpl in Ha; injection Ha as <-.
        * rewrite (ad_keep AL). split; auto. intros c. rewrite V, (ad_val AL). cbn [Rsum]. unfold at_j at 1.
          destruct (Z.eqb_spec (fst o) (Z.of_nat j)); [lra|lia].
        * split; auto. intros c. rewrite V. cbn [Rsum]. unfold at_j at 1. destruct (Z.eqb_spec (fst o) (Z.of_nat j)); [lia|lra].
  Qed.

  Lemma Acc_perm : forall g ops ops' g', Permutation ops ops' -> Acc g ops g' -> Acc g ops' g'.
  Proof.
    intros g ops ops' g' P (L & H). split; auto. intros j a Ha. destruct (H j a Ha) as (a' & E & Kp & V). exists a'.
    split; auto. split; auto. intros c. rewrite V. f_equal. apply Rsum_perm; auto.
  Qed.
  Lemma adds_perm : forall ops ops' g, Permutation ops ops' -> adds ops g = adds ops' g.
  Proof.
    assert (H : forall ops ops' g g', Permutation ops ops' -> adds ops g = Ok g' -> adds ops' g = Ok g').
    { intros ops ops' g g' P H. apply adds_Ok in H. destruct H as (F & H). apply adds_Ok. split.
      - eapply Permutation_Forall; eauto.
      - eapply Acc_perm; eauto. }
    intros. apply res_eq; try apply adds_nf. intros g'. split; apply H; auto. symmetry; auto.
  Qed.
  Lemma adds_app : forall a b g, adds (a ++ b) g = bind (adds a g) (adds b).
  Proof. intros. apply foldM_app. Qed.

  (** Merging a buffer. *)
  Definition mergeN (g l : list Nd) : list Nd := map (fun ab => plus (fst ab) (snd ab)) (combine g l).
  Lemma nth_combine : forall (g l : list Nd) j, nth_error (combine g l) j =
    match nth_error g j, nth_error l j with Some a, Some b => Some (a, b) | _, _ => None end.
  Proof.
    induction g; intros [|b l] [|j]; simpl; auto. destruct (nth_error g j); auto.
  Qed.
  Lemma merge_adds : forall ops g l, adds ops (repeat zero (length g)) = Ok l -> adds ops g = Ok (mergeN g l).
  Proof.
    intros ops g l H. apply adds_Ok in H. rewrite repeat_length in H. destruct H as (F & L & H).
    rewrite repeat_length in L. apply adds_Ok. split; auto. split.
    - unfold mergeN. rewrite map_length, combine_length. lia.
    - intros j a Ha. assert (Hj : (j < length g)%nat) by (apply nth_error_Some; congruence).
      destruct (H j zero) as (b & Eb & _ & V).
      { rewrite (nth_error_nth' _ zero) by (rewrite repeat_length; auto). f_equal. apply nth_repeat. }
      exists (plus a b). unfold mergeN. rewrite nth_error_map, nth_combine, Ha, Eb. split; auto.
      rewrite (ad_keep AL). split; auto. intros c. rewrite (ad_val AL), V, (ad_zero AL). lra.
  Qed.
  Lemma merge_adds' : forall ops g g', adds ops g = Ok g' -> exists l, adds ops (repeat zero (length g)) = Ok l.
  Proof.
    intros ops g g' H. apply adds_Ok in H. destruct H as (F & _).
    assert (F' : Forall (fun o => (0 <= fst o < Z.of_nat (length (repeat zero (length g))))%Z) ops).
    { rewrite repeat_length; auto. }
    clear F. revert F'. generalize (repeat zero (length g)). induction ops as [|o ops IH]; intros r F.
    - exists r. reflexivity.
    - inversion F as [|? ? F1 F2]; subst. destruct (upd_Ok r (fst o) (fun a => plus a (snd o)) F1) as (g1 & E1 & L1 & _).
      destruct (IH g1) as [l El]; [rewrite L1; auto|]. exists l. unfold adds. simpl. unfold add_at at 1. rewrite E1. exact El.
  Qed.

  (** Particles produce lists of contributions. *)
  Variable opsf : nat -> res (list (Z * Nd)).
  Hypothesis opsf_nf : forall i, opsf i <> NoFuel.
  Definition one (g : list Nd) (i : nat) : res (list Nd) := ops <- opsf i ;; adds ops g.
  Definition thread (th : list nat) (g : list Nd) : res (list Nd) := foldM one th g.
  Definition accum (n : nat) (sched : list (list nat)) (g : list Nd) : res (list Nd) :=
    foldM (fun g th => l <- thread th (repeat zero n) ;; Ok (mergeN g l)) sched g.
  Definition total (is : list nat) (g : list Nd) : res (list Nd) :=
    opss <- mapM opsf is ;; adds (concat opss) g.

  Lemma thread_nf : forall th g, thread th g <> NoFuel.
  Proof. intros. apply foldM_nf. intros. apply bind_nf; auto. intros. apply adds_nf. Qed.
  Lemma total_nf : forall th g, total th g <> NoFuel.
  Proof. intros. apply bind_nf; [apply mapM_nf; auto|]. intros. apply adds_nf. Qed.
  Lemma accum_nf : forall n th g, accum n th g <> NoFuel.
  Proof. intros. apply foldM_nf. intros. apply bind_nf; [apply thread_nf|]. discriminate. Qed.

  Ltac rwb := repeat (cbn [bind]; match goal with H : ?a = Ok _ |- context [bind ?a _] => rewrite H end); cbn [bind].
  Lemma thread_total : forall th g, thread th g = total th g.
  Proof.
    intros. apply res_eq; [apply thread_nf|apply total_nf|]. revert g.
    induction th as [|i th IH]; intros g g'; unfold thread, total; simpl.
    - unfold adds. simpl. tauto.
    - fold (thread th). split; intros H.
      + invb. unfold one in *. invb. apply IH in H. unfold total in H. invb. rwb. simpl concat. rewrite adds_app. rwb. auto.
      + invb. simpl in H. rewrite adds_app in H. invb. unfold one at 1. rwb. apply IH. unfold total. rwb. auto.
  Qed.
  Lemma adds_length : forall ops g g', adds ops g = Ok g' -> length g' = length g.
  Proof. intros ops g g' H. apply adds_Ok in H. apply H. Qed.
  Lemma accum_total : forall sched g n, length g = n -> accum n sched g = total (concat sched) g.
  Proof.
    intros sched g n Hn. apply res_eq; [apply accum_nf|apply total_nf|]. revert g Hn.
    induction sched as [|th sched IH]; intros g Hn g'; unfold accum; simpl.
    - unfold total. simpl. unfold adds. simpl. tauto.
    - fold (accum n sched). unfold total. rewrite mapM_app. split; intros H.
      + apply bind_Ok in H. destruct H as (g1 & H1 & H). apply bind_Ok in H1. destruct H1 as (l & H1 & H2). injection H2 as <-.
        rewrite thread_total in H1. unfold total in H1. apply bind_Ok in H1. destruct H1 as (os & M1 & H1).
        rewrite <- Hn in H1. apply merge_adds in H1. pose proof (adds_length _ _ _ H1) as L.
        apply IH in H; [|congruence]. unfold total in H. apply bind_Ok in H. destruct H as (os2 & M2 & H). rwb.
        rewrite concat_app, adds_app. rwb. auto.
      + apply bind_Ok in H. destruct H as (os & M & H). apply bind_Ok in M. destruct M as (os1 & M1 & M).
        apply bind_Ok in M. destruct M as (os2 & M2 & M). injection M as <-.
        rewrite concat_app, adds_app in H. apply bind_Ok in H. destruct H as (g1 & A1 & H).
        rewrite thread_total. unfold total. rwb.
        destruct (merge_adds' _ _ _ A1) as [l El]. pose proof (merge_adds _ _ _ El) as Q. rewrite A1 in Q. injection Q as ->.
        pose proof (adds_length _ _ _ A1) as L. rewrite Hn in El. rwb. apply IH; [congruence|]. unfold total. rwb. auto.
  Qed.
  Lemma total_perm : forall is is' g, Permutation is is' -> total is g = total is' g.
  Proof.
    assert (H : forall is is' g g', Permutation is is' -> total is g = Ok g' -> total is' g = Ok g').
    { intros is is' g g' P H. unfold total in *. invb. destruct (mapM_perm _ _ _ _ _ _ P E) as (ys & E' & P').
      rewrite E'. simpl. rewrite <- H. symmetry. apply adds_perm, perm_concat; auto. }
    intros. apply res_eq; try apply total_nf. intros g'. split; apply H; auto. symmetry; auto.
  Qed.
End Accum.
