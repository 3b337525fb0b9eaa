(** * ResProofs: lemmas on outcomes, array access and monadic loops. *)
From Coq Require Import ZArith Lia List Bool Permutation.
From Verif Require Import Num.
Import ListNotations.

Lemma bind_Ok : forall X Y (r : res X) (f : X -> res Y) y,
  bind r f = Ok y <-> exists x, r = Ok x /\ f x = Ok y.
Proof.
  intros; destruct r; simpl; split; intros H; try discriminate;
    try (destruct H as (x0 & E & _); discriminate).
  - eauto.
  - destruct H as (x0 & E & E'); injection E as ->; auto.
Qed.

Ltac invb :=
  repeat match goal with
  | H : bind _ _ = Ok _ |- _ => apply bind_Ok in H; destruct H as (?x & ?E & H)
  | H : Ok _ = Ok _ |- _ => injection H as ?; subst
  | H : UB = Ok _ |- _ => discriminate H
  | H : NoFuel = Ok _ |- _ => discriminate H
  end.

Section Arr.
  Context {X : Type}.
  Implicit Types l : list X.

  Lemma rd_Ok : forall l z x, rd l z = Ok x <-> (0 <= z)%Z /\ nth_error l (Z.to_nat z) = Some x.
  Proof.
    intros; unfold rd. destruct (Z.ltb_spec z 0).
    - split; [discriminate|intros [? _]; lia].
    - destruct (nth_error l (Z.to_nat z)); split; intros H'; try discriminate.
      + injection H' as ->; split; auto.
      + destruct H' as [_ H']; injection H' as ->; auto.
      + destruct H'; discriminate.
  Qed.
  Lemma rd_range : forall l z x, rd l z = Ok x -> (0 <= z < Z.of_nat (length l))%Z.
  Proof.
    intros l z x H. apply rd_Ok in H. destruct H as [H0 H].
    assert (nth_error l (Z.to_nat z) <> None) by congruence.
    apply nth_error_Some in H1. lia.
  Qed.
  Lemma rd_some : forall l z, (0 <= z < Z.of_nat (length l))%Z -> exists x, rd l z = Ok x.
  Proof.
    intros l z H. destruct (nth_error l (Z.to_nat z)) eqn:E.
    - exists x. apply rd_Ok. split; [lia|auto].
    - apply nth_error_None in E. lia.
  Qed.
  Lemma rd_nat : forall l i, rd l (Z.of_nat i) = match nth_error l i with Some x => Ok x | None => UB end.
  Proof. intros; unfold rd. destruct (Z.ltb_spec (Z.of_nat i) 0); [lia|]. now rewrite Nat2Z.id. Qed.
  Lemma rd_UB_or : forall l z, (exists x, rd l z = Ok x) \/ rd l z = UB.
  Proof. intros; unfold rd. destruct (z <? 0)%Z; auto. destruct (nth_error l (Z.to_nat z)); eauto. Qed.
  Lemma rd_In : forall l z x, rd l z = Ok x -> In x l.
  Proof. intros l z x H. apply rd_Ok in H. eapply nth_error_In; apply H. Qed.

  Lemma upd_nat_Some : forall l i f, (i < length l)%nat ->
    exists l', upd_nat l i f = Some l' /\ length l' = length l /\
      forall j, nth_error l' j = if Nat.eqb i j then option_map f (nth_error l j) else nth_error l j.
  Proof.
    induction l as [|x l IH]; intros i f H; simpl in H; [lia|].
    destruct i; simpl.
    - eexists; split; [reflexivity|]. split; auto. intros [|j]; reflexivity.
    - destruct (IH i f) as (l' & E & L & N); [lia|]. rewrite E.
      eexists; split; [reflexivity|]. split; [simpl; congruence|].
      intros [|j]; simpl; auto.
  Qed.
  Lemma upd_nat_None : forall l i f, (length l <= i)%nat -> upd_nat l i f = None.
  Proof. induction l; intros i f H; simpl in *; auto. destruct i; [lia|]. rewrite IHl; auto; lia. Qed.
  Lemma upd_Ok : forall l z f, (0 <= z < Z.of_nat (length l))%Z ->
    exists l', upd l z f = Ok l' /\ length l' = length l /\
      forall j, nth_error l' j = if Nat.eqb (Z.to_nat z) j then option_map f (nth_error l j) else nth_error l j.
  Proof.
    intros. unfold upd. destruct (Z.ltb_spec z 0); [lia|].
    destruct (upd_nat_Some l (Z.to_nat z) f) as (l' & E & R); [lia|]. rewrite E; eauto.
  Qed.
  Lemma upd_UB : forall l z f, ~ (0 <= z < Z.of_nat (length l))%Z -> upd l z f = UB.
  Proof.
    intros. unfold upd. destruct (Z.ltb_spec z 0); auto.
    rewrite upd_nat_None; auto; lia.
  Qed.
  Lemma upd_inv : forall l z f l', upd l z f = Ok l' ->
    (0 <= z < Z.of_nat (length l))%Z /\ length l' = length l /\
      forall j, nth_error l' j = if Nat.eqb (Z.to_nat z) j then option_map f (nth_error l j) else nth_error l j.
  Proof.
    intros l z f l' H.
    assert (D : (0 <= z < Z.of_nat (length l))%Z \/ ~ (0 <= z < Z.of_nat (length l))%Z) by lia.
    destruct D as [D|D].
    - destruct (upd_Ok l z f D) as (l'' & E & R). rewrite H in E; injection E as <-. auto.
    - rewrite upd_UB in H by auto. discriminate.
  Qed.
  Lemma nth_error_ext : forall l l', (forall j, nth_error l j = nth_error l' j) -> l = l'.
  Proof.
    induction l; destruct l'; intros H; auto.
    - specialize (H 0%nat); discriminate.
    - specialize (H 0%nat); discriminate.
    - f_equal; [specialize (H 0%nat); simpl in H; congruence|].
      apply IHl. intros j; apply (H (S j)).
  Qed.
  Lemma nth_error_seq_map : forall Y (f : nat -> Y) n s j,
    nth_error (map f (seq s n)) j = if Nat.ltb j n then Some (f (s + j)%nat) else None.
  Proof.
    induction n; intros s j; simpl; [destruct j; auto|].
    destruct j; simpl; [now rewrite Nat.add_0_r|].
    rewrite IHn. destruct (Nat.ltb_spec j n); destruct (Nat.ltb_spec (S j) (S n)); auto; try lia.
    do 2 f_equal; lia.
  Qed.
End Arr.

Section Loops.
  Context {X Y S' : Type}.

  Lemma foldM_app : forall (f : S' -> X -> res S') l1 l2 s,
    foldM f (l1 ++ l2) s = bind (foldM f l1 s) (foldM f l2).
  Proof. induction l1; intros; simpl; auto. destruct (f s a); simpl; auto. Qed.
  Lemma foldM_inv : forall (I : S' -> Prop) (f : S' -> X -> res S') l s s',
    I s -> (forall x s s', In x l -> I s -> f s x = Ok s' -> I s') -> foldM f l s = Ok s' -> I s'.
  Proof.
    induction l; intros s s' H0 Hs H; simpl in H; invb; auto.
    eapply IHl; [eapply Hs with (x := a); eauto; now left| |eauto].
    intros; eapply Hs; eauto. now right.
  Qed.
  Lemma mapM_Ok : forall (f : X -> res Y) l l',
    mapM f l = Ok l' <-> Forall2 (fun x y => f x = Ok y) l l'.
  Proof.
    induction l; intros l'; simpl; split; intros H; invb.
    - constructor.
    - inversion H; auto.
    - constructor; auto. apply IHl; auto.
    - inversion H; subst. rewrite H2. simpl. apply IHl in H4. rewrite H4. auto.
  Qed.
  Lemma mapM_length : forall (f : X -> res Y) l l', mapM f l = Ok l' -> length l' = length l.
  Proof. intros. apply mapM_Ok in H. symmetry; clear - H. induction H; simpl; auto. Qed.
  Lemma mapM_total : forall (f : X -> res Y) g l, (forall x, In x l -> f x = Ok (g x)) -> mapM f l = Ok (map g l).
  Proof.
    induction l; intros H; simpl; auto. rewrite H by now left. simpl.
    rewrite IHl; auto. intros; apply H; now right.
  Qed.
  Lemma mapM_In : forall (f : X -> res Y) l l' y, mapM f l = Ok l' -> In y l' -> exists x, In x l /\ f x = Ok y.
  Proof.
    intros f l l' y H. apply mapM_Ok in H. induction H; intros Hy; simpl in Hy; [tauto|].
    destruct Hy as [->|Hy]; [exists x; split; auto; now left|].
    destruct (IHForall2 Hy) as (x0 & ? & ?). exists x0; split; auto; now right.
  Qed.
End Loops.

Lemma Forall2_nth_error : forall X Y (P : X -> Y -> Prop) l l', Forall2 P l l' ->
  forall i x, nth_error l i = Some x -> exists y, nth_error l' i = Some y /\ P x y.
Proof.
  induction 1; intros [|i] z E; simpl in *; try discriminate.
  - injection E as <-. eauto.
  - eauto.
Qed.
