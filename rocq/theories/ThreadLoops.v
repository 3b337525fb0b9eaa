(** * ThreadLoops: parallel loops whose iterations own their particle or their node. *)
From Coq Require Import ZArith Lia List Bool Permutation FunctionalExtensionality.
From Verif Require Import Num Tools Lin Types Remesh Objects Transfer Spec ResProofs PloopProofs Threads SpecThreads ThreadProofs.
Import ListNotations.
Local Open Scope num_scope.

Section Lists.
  Lemma slot_nat : forall X (l : list X) i, slot l (Z.of_nat i) = nth_error l i.
  Proof. intros. unfold slot. rewrite rd_nat. destruct (nth_error l i); auto. Qed.
  Lemma slot_neg : forall X (l : list X) z, (z < 0)%Z -> slot l z = None.
  Proof. intros. unfold slot. destruct (rd l z) eqn:E; auto. apply rd_Ok in E. lia. Qed.
  Lemma slot_ge : forall X (l : list X) z, (Z.of_nat (length l) <= z)%Z -> slot l z = None.
  Proof. intros. unfold slot. destruct (rd l z) eqn:E; auto. apply rd_range in E. lia. Qed.
  Lemma slot_rd : forall X (l : list X) z x, rd l z = Ok x -> slot l z = Some x.
  Proof. intros. unfold slot. now rewrite H. Qed.
  Lemma slot_map : forall X Y (f : X -> Y) l z, slot (map f l) z = option_map f (slot l z).
  Proof.
    intros. destruct (Z.ltb_spec z 0) as [L|L]; [now rewrite !slot_neg|]. rewrite <- (Z2Nat.id z) by auto. rewrite !slot_nat. apply nth_error_map.
  Qed.
  Lemma slot_set : forall X (l : list X) i x z, i < length l -> slot (set_nth i x l) z = if Z.eqb (Z.of_nat i) z then Some x else slot l z.
  Proof.
    intros X l i x z H. destruct (Z.ltb_spec z 0) as [L|L].
    - rewrite !slot_neg by auto. destruct (Z.eqb_spec (Z.of_nat i) z); [lia|auto].
    - rewrite <- (Z2Nat.id z) by auto. rewrite !slot_nat, set_nth_nth by auto. destruct (Nat.eqb_spec i (Z.to_nat z)), (Z.eqb_spec (Z.of_nat i) (Z.of_nat (Z.to_nat z))); auto; lia.
  Qed.
  Lemma set_set : forall X (l : list X) i x y, set_nth i y (set_nth i x l) = set_nth i y l.
  Proof. induction l; intros [|i] x y; cbn; auto. now rewrite IHl. Qed.
  Lemma set_at : forall X (l : list X) i x y, nth_error l i = Some y -> nth_error (set_nth i x l) i = Some x.
  Proof. intros. rewrite set_nth_nth, Nat.eqb_refl by (eapply nth_lt; eauto). auto. Qed.

  Lemma concat_in : forall (sched : list (list nat)) t i, In i (nth t sched []) -> In i (concat sched).
  Proof.
    induction sched; intros [|t] i H; cbn in *; try contradiction; apply in_or_app; [now left|right; eapply IHsched; eauto].
  Qed.
  Lemma NoDup_app_inv : forall (a b : list nat), NoDup (a ++ b) -> NoDup a /\ NoDup b /\ forall x, In x a -> ~ In x b.
  Proof.
    induction a; cbn; intros b H; [split; [constructor|auto]|]. inversion H; subst. destruct (IHa _ H3) as (A & B & C). split; [|split; auto].
    - constructor; auto. intros K. apply H2, in_or_app. auto.
    - intros x [<-|K]; auto. intros K'. apply H2, in_or_app. auto.
  Qed.
  Lemma nodup_thread : forall (sched : list (list nat)) t, NoDup (concat sched) -> NoDup (nth t sched []).
  Proof.
    induction sched; intros [|t] H; cbn in *; try constructor; destruct (NoDup_app_inv _ _ H) as (A & B & C); auto.
  Qed.
  Lemma thread_unique : forall (sched : list (list nat)) t u i, NoDup (concat sched) -> In i (nth t sched []) -> In i (nth u sched []) -> t = u.
  Proof.
    induction sched as [|th sched IH]; intros t u i H Ht Hu; [destruct t; contradiction|]. cbn in H. destruct (NoDup_app_inv _ _ H) as (A & B & C).
    destruct t, u; cbn in *; auto.
    - exfalso. apply (C i Ht). eapply concat_in; eauto.
    - exfalso. apply (C i Hu). eapply concat_in; eauto.
    - f_equal. eapply IH; eauto.
  Qed.
  Lemma list_choice : forall X (Q : nat -> X -> nat -> Prop) ts, (forall t p, nth_error ts t = Some p -> exists n, Q t p n) ->
    exists ns, length ns = length ts /\ forall t p n, nth_error ts t = Some p -> nth_error ns t = Some n -> Q t p n.
  Proof.
    intros X Q ts. revert Q. induction ts as [|p ts IH]; intros Q H; [exists []; split; auto; intros [|t] q n Hq; discriminate|].
    destruct (H 0 p eq_refl) as (n & Hn). destruct (IH (fun t => Q (S t))) as (ns & L & K); [intros t q Hq; apply (H (S t)); auto|].
    exists (n :: ns). split; [cbn; lia|]. intros [|t] q n' Hq Hn'; cbn in *; [congruence|eapply K; eauto].
  Qed.
End Lists.

(** ** Cells: iteration [i] owns the locations of cell [i]. *)
Section Cells.
  Context {A : Type} {G : Geo A}.
  Notation Prog := (Prog A).
  Notation Mem := (Mem A).
  Variable X : Type.
  Variable M : list X -> Mem.
  Variable owner : Loc -> option Z.
  Hypothesis Hat : forall l l' loc z, length l = length l' -> owner loc = Some z -> slot l z = slot l' z -> M l loc = M l' loc.
  Hypothesis Hno : forall l l' loc, length l = length l' -> owner loc = None -> M l loc = M l' loc.
  Variable iter : nat -> Prog -> Prog.
  Variable body : nat -> X -> res X.
  Variable pre : X -> Prop.

  (** Iteration [i], run alone before [k], replaces cell [x] by [x']. *)
  Definition iteration (i : nat) (x x' : X) : Prop :=
    forall R W E l k n m', (forall loc, owner loc = Some (Z.of_nat i) -> R loc /\ W loc) -> (forall loc, owner loc = None -> R loc) ->
      nth_error l i = Some x -> alone R W E k (M (set_nth i x' l)) n m' -> exists n', alone R W E (iter i k) (M l) n' m'.
  Variable T : nat.
  Hypothesis Hiter : forall i x x', i < T -> pre x -> body i x = Ok x' -> iteration i x x'.

  Lemma cells_thread : forall R W th l,
    (forall i loc, In i th -> owner loc = Some (Z.of_nat i) -> R loc /\ W loc) -> (forall loc, owner loc = None -> R loc) -> NoDup th ->
    (forall i, In i th -> i < T /\ exists x x', nth_error l i = Some x /\ pre x /\ body i x = Ok x') ->
    exists n l', length l' = length l /\ alone R W Done (thread_of iter th) (M l) n (M l') /\
      (forall i x x', In i th -> nth_error l i = Some x -> body i x = Ok x' -> nth_error l' i = Some x') /\
      (forall j, ~ In j th -> nth_error l' j = nth_error l j).
  Proof.
    intros R W. induction th as [|i th IH]; intros l Ho Hn ND H.
    - exists 0, l. split; auto. split; [constructor|]. split; auto. intros ? ? ? [].
    - inversion ND as [|? ? Ni ND']; subst. destruct (H i (or_introl eq_refl)) as (HT & x & x' & Ex & Px & Bx).
      pose proof (nth_lt _ _ _ _ Ex) as Hl.
      assert (Sep : forall j, In j th -> nth_error (set_nth i x' l) j = nth_error l j).
      { intros j Hj. rewrite set_nth_nth by auto. destruct (Nat.eqb_spec i j); [congruence|auto]. }
      destruct (IH (set_nth i x' l)) as (n & l' & L & Al & K & Off); auto.
      { intros; apply (Ho i0); auto; now right. }
      { intros j Hj. destruct (H j (or_intror Hj)) as (HT' & y & y' & Ey & Q). split; auto. exists y, y'. now rewrite Sep. }
      rewrite set_nth_length in L.
      assert (Hown : forall loc, owner loc = Some (Z.of_nat i) -> R loc /\ W loc) by (intros; eapply Ho; eauto; now left).
      destruct (Hiter i x x' HT Px Bx R W Done l (thread_of iter th) n (M l') Hown Hn Ex Al) as (n' & Al').
      exists n', l'. split; auto. split; auto. split.
      + intros j y y' [<-|Hj] Ey By.
        * rewrite Ex in Ey. injection Ey as <-. rewrite Bx in By. injection By as <-. rewrite Off by auto. eapply set_at; eauto.
        * apply (K j y); auto. now rewrite Sep.
      + intros j Hj. rewrite Off by (intros Q; apply Hj; now right). rewrite set_nth_nth by auto. destruct (Nat.eqb_spec i j); auto. subst. exfalso. apply Hj. now left.
  Qed.

  Theorem cells_parallel : forall sched l l', Permutation (concat sched) (seq 0 (length l)) -> T = length l -> length l' = length l ->
    (forall i x, nth_error l i = Some x -> pre x /\ exists x', body i x = Ok x' /\ nth_error l' i = Some x') ->
    parallel (map (thread_of iter) sched) (M l) (fun m => forall loc, m loc = M l' loc).
  Proof.
    intros sched l l' Hp HT Hl H. destruct (perm_seq _ _ Hp) as (ND & HI).
    set (W := fun t loc => exists i, In i (nth t sched []) /\ owner loc = Some (Z.of_nat i)).
    set (RR := fun t loc => W t loc \/ owner loc = None).
    assert (Hdis : forall t u loc, t <> u -> W t loc -> ~ RR u loc /\ ~ W u loc).
    { intros t u loc Ne (i & Hi & Eo). assert (NW : ~ W u loc).
      { intros (j & Hj & Eo'). assert (i = j) by (rewrite Eo in Eo'; injection Eo' as K; lia). subst j. apply Ne. eapply thread_unique; eauto. }
      split; auto. intros [K|K]; [auto|congruence]. }
    destruct (list_choice _ (fun t p n => exists m', alone (RR t) (W t) Done p (M l) n m' /\ forall loc, W t loc -> m' loc = M l' loc) (map (thread_of iter) sched)) as (ns & Ln & Hns).
    { intros t p Ht. rewrite nth_error_map in Ht. destruct (nth_error sched t) as [th|] eqn:Eth; [|discriminate]. cbn in Ht. injection Ht as <-.
      assert (En : nth t sched [] = th) by (apply nth_error_nth; auto).
      destruct (cells_thread (RR t) (W t) th l) as (n & l1 & L1 & Al & K & _).
      - intros i loc Hi Ho. assert (W t loc) by (exists i; rewrite En; auto). split; [now left|auto].
      - intros loc Ho. now right.
      - rewrite <- En. apply nodup_thread. auto.
      - intros i Hi. rewrite <- En in Hi. apply concat_in in Hi. apply HI in Hi. split; [lia|].
        destruct (nth_error l i) as [x|] eqn:Ex; [|apply nth_error_None in Ex; lia]. destruct (H i x Ex) as (P & x' & B & _). eauto.
      - exists n, (M l1). split; auto. intros loc (i & Hi & Ho). assert (EL : length l1 = length l') by congruence. apply (Hat _ _ _ _ EL Ho). rewrite !slot_nat. rewrite En in Hi.
        assert (Hi' : i < length l) by (apply HI; eapply concat_in; rewrite En; eauto).
        destruct (nth_error l i) as [x|] eqn:Ex; [|apply nth_error_None in Ex; lia]. destruct (H i x Ex) as (P & x' & B & E'). rewrite E'. eapply K; eauto. }
    destruct (disjoint_parallel RR W Hdis (M l) (fun _ => M l') ns (map (thread_of iter) sched)) as (Q1 & Q2); [constructor; auto|].
    split; auto. clear - Q2 HI Hat Hno Hl Hp. rewrite map_length in Q2.
    assert (Imp : forall m : Mem, (forall t loc, t < length sched -> W t loc -> m loc = M l' loc) /\ (forall loc, (forall t, t < length sched -> ~ W t loc) -> m loc = M l loc) ->
      forall loc, m loc = M l' loc).
    { intros m (A1 & A2) loc. destruct (owner loc) as [z|] eqn:Eo.
      - destruct (Z.ltb_spec z 0) as [L|L]; [|destruct (Z.ltb_spec z (Z.of_nat (length l))) as [L'|L']].
        + rewrite A2; [apply (Hat _ _ _ z); auto; now rewrite !slot_neg|]. intros t _ (i & _ & K). rewrite Eo in K. injection K as K. lia.
        + assert (Hi : In (Z.to_nat z) (concat sched)) by (apply HI; lia). apply in_concat in Hi. destruct Hi as (th & Hth & Hz).
          apply In_nth_error in Hth. destruct Hth as (t & Et). apply (A1 t); [eapply nth_lt; eauto|]. exists (Z.to_nat z). split; [rewrite (nth_error_nth _ _ _ Et); auto|].
          now rewrite Z2Nat.id by lia.
        + rewrite A2; [apply (Hat _ _ _ z); auto; rewrite !slot_ge; auto; now rewrite Hl|]. intros t _ (i & Hi & K). rewrite Eo in K. injection K as K.
          apply concat_in, HI in Hi. lia.
      - rewrite A2; [apply Hno; auto|]. intros t _ (i & _ & K). congruence. }
    assert (Mono : forall (P Q : Mem -> Prop) s, (forall m, P m -> Q m) -> inevitably P s -> inevitably Q s).
    { intros P Q s PQ I. induction I; [apply inev_now; auto|apply inev_later; auto]. }
    eapply Mono; [|exact Q2]. apply Imp.
  Qed.
End Cells.
