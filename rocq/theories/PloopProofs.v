(** * PloopProofs: loops whose iterations touch only their own particle do the same to every
    particle, whatever the order of the iterations. *)
From Coq Require Import Reals ZArith Lra Lia List Bool Permutation.
From Verif Require Import Num NumR Lin Types Transfer Spec ResProofs AccumProofs.
Import ListNotations.
Local Open Scope R_scope.

Section Ploop.
  Context {Ar : Type} {NA : Num Ar} {G : Geo Ar}.

  (** Particle arrays from a list of particles. *)
  Definition pack (l : list (P1 Ar)) : Particles Ar :=
    mkParticles (map q_x l) (map q_v l) (map q_pic l) (map q_flip l) (map q_h l) (map q_F l) (map q_B l) (map q_tau l).

  Lemma pack_consistent : forall l, consistent (pack l) (length l).
  Proof. intros. constructor; cbn; apply map_length. Qed.

  Lemma rd_map : forall X Y (f : X -> Y) l i, rd (map f l) (Z.of_nat i) = match nth_error l i with Some x => Ok (f x) | None => UB end.
  Proof. intros. rewrite rd_nat, nth_error_map. destruct (nth_error l i); reflexivity. Qed.
  Lemma getp_pack : forall l i, getp (pack l) i = match nth_error l i with Some q => Ok q | None => UB end.
  Proof.
    intros. unfold getp, pack. cbn [p_x p_v p_pic p_flip p_hist p_F p_B p_tau]. cbv zeta. rewrite !rd_map. destruct (nth_error l i) as [q|]; cbn [bind]; auto. now destruct q.
  Qed.
  Fixpoint repl (l : list (P1 Ar)) (i : nat) (q : P1 Ar) : list (P1 Ar) :=
    match l, i with [], _ => [] | _ :: r, O => q :: r | x :: r, S j => x :: repl r j q end.
  Lemma repl_length : forall l i q, length (repl l i q) = length l.
  Proof. induction l; intros [|i] q; cbn; auto. Qed.
  Lemma repl_nth : forall l i q j, (i < length l)%nat -> nth_error (repl l i q) j = if Nat.eqb i j then Some q else nth_error l j.
  Proof.
    induction l; intros i q j H; cbn in H; [lia|]. destruct i, j; cbn; auto. apply IHl. lia.
  Qed.
  Lemma upd_map : forall Y (f : P1 Ar -> Y) l i q, (i < length l)%nat -> upd (map f l) (Z.of_nat i) (fun _ => f q) = Ok (map f (repl l i q)).
  Proof.
    intros Y f l i q H. unfold upd. destruct (Z.ltb_spec (Z.of_nat i) 0); [lia|]. rewrite Nat2Z.id. clear H0.
    replace (upd_nat (map f l) i (fun _ => f q)) with (Some (map f (repl l i q))); auto.
    revert i H. induction l; intros i H; cbn in H; [lia|]. destruct i; cbn; auto. rewrite <- IHl by lia. reflexivity.
  Qed.
  Lemma putp_pack : forall l i q, (i < length l)%nat -> putp (pack l) i q = Ok (pack (repl l i q)).
  Proof.
    intros l i q H. unfold putp, pack. cbn [p_x p_v p_pic p_flip p_hist p_F p_B p_tau]. cbv zeta.
    rewrite (upd_map _ q_x), (upd_map _ q_v), (upd_map _ q_pic), (upd_map _ q_flip), (upd_map _ q_h), (upd_map _ q_F), (upd_map _ q_B), (upd_map _ q_tau) by auto.
    reflexivity.
  Qed.

  (** Consistent arrays come from a list of particles. *)
  Lemma consistent_pack : forall P n, consistent P n -> exists l, length l = n /\ P = pack l.
  Proof.
    intros [x v pic fl h F B tau] n [L1 L2 L3 L4 L5 L6 L7 L8]. cbn in *.
    revert n v pic fl h F B tau L1 L2 L3 L4 L5 L6 L7 L8. induction x as [|a x IH]; intros n v pic fl h F B tau L1 L2 L3 L4 L5 L6 L7 L8; cbn in L1; subst n.
    - apply length_zero_iff_nil in L2, L3, L4, L5, L6, L7, L8. subst. exists []. split; reflexivity.
    - destruct v as [|v0 v], pic as [|c0 pic], fl as [|f0 fl], h as [|h0 h], F as [|F0 F], B as [|B0 B], tau as [|t0 tau]; try discriminate.
      cbn in *. injection L2 as L2. injection L3 as L3. injection L4 as L4. injection L5 as L5. injection L6 as L6. injection L7 as L7. injection L8 as L8.
      destruct (IH _ v pic fl h F B tau eq_refl L2 L3 L4 L5 L6 L7 L8) as (l & E & Q). unfold pack in Q. injection Q as -> -> -> -> -> -> -> ->.
      exists (mkP1 a v0 c0 f0 h0 F0 B0 t0 :: l). cbn. split; [lia|]. reflexivity.
  Qed.

  Variable body : P1 Ar -> res (P1 Ar * Flags).
  Definition pstep (s : Particles Ar * Flags) (i : nat) : res (Particles Ar * Flags) :=
    q <- getp (fst s) i ;; r <- body q ;; P' <- putp (fst s) i (fst r) ;;
    Ok (P', (fst (snd s) || fst (snd r), (snd (snd s) + snd (snd r))%nat)).
  Lemma ploop_fold : forall sched P, ploop body sched P = foldM pstep sched (P, (false, 0%nat)).
  Proof. reflexivity. Qed.

  (** Flags of the particle at an index. *)
  Definition flag (l : list (P1 Ar)) (i : nat) : Flags :=
    match nth_error l i with Some q => match body q with Ok r => snd r | _ => (false, 0%nat) end | None => (false, 0%nat) end.
  Definition fsum (fl : Flags) (g : nat -> Flags) (sched : list nat) : Flags :=
    (fst fl || existsb (fun i => fst (g i)) sched, (snd fl + list_sum (map (fun i => snd (g i)) sched))%nat).

  Lemma pstep_Ok : forall l fl i s', pstep (pack l, fl) i = Ok s' ->
    exists q r, nth_error l i = Some q /\ body q = Ok r /\ s' = (pack (repl l i (fst r)), (fst fl || fst (snd r), (snd fl + snd (snd r))%nat)).
  Proof.
    intros l fl i s' H. unfold pstep in H. cbn [fst snd] in H. rewrite getp_pack in H. destruct (nth_error l i) as [q|] eqn:E; [|discriminate].
    cbn [bind] in H. apply bind_Ok in H. destruct H as (r & Er & H). rewrite putp_pack in H by (apply nth_error_Some; congruence).
    cbn [bind] in H. injection H as <-. exists q, r. auto.
  Qed.
  Lemma fold_fwd : forall sched l fl s', NoDup sched -> foldM pstep sched (pack l, fl) = Ok s' ->
    exists l', s' = (pack l', fsum fl (flag l) sched) /\ length l' = length l /\
      (forall i, In i sched -> exists q r, nth_error l i = Some q /\ body q = Ok r /\ nth_error l' i = Some (fst r)) /\
      (forall i, ~ In i sched -> nth_error l' i = nth_error l i).
  Proof.
    induction sched as [|i sched IH]; intros l fl s' ND H; cbn in H.
    - injection H as <-. exists l. split; [unfold fsum; cbn; rewrite orb_false_r, Nat.add_0_r; now destruct fl|]. split; auto. split; [intros ? []|auto].
    - inversion ND as [|? ? Ni ND']; subst. apply bind_Ok in H. destruct H as (s1 & E1 & H).
      destruct (pstep_Ok l fl i s1 E1) as (q & r & Eq & Er & ->).
      assert (Hi : (i < length l)%nat) by (apply nth_error_Some; congruence).
      destruct (IH _ _ _ ND' H) as (l' & Es & Ll & In1 & Out1). rewrite repl_length in Ll.
      assert (Fl : forall j, In j sched -> flag (repl l i (fst r)) j = flag l j).
      { intros j Hj. unfold flag. rewrite repl_nth by auto. destruct (Nat.eqb_spec i j); [congruence|auto]. }
      exists l'. split.
      + rewrite Es. f_equal. unfold fsum. cbn [fst snd existsb map list_sum fold_right].
        assert (F0 : flag l i = snd r) by (unfold flag; now rewrite Eq, Er). rewrite F0.
        assert (E : existsb (fun j => fst (flag (repl l i (fst r)) j)) sched = existsb (fun j => fst (flag l j)) sched).
        { clear - Fl. induction sched; cbn; auto. rewrite Fl by now left. f_equal. apply IHsched. intros; apply Fl; now right. }
        assert (E' : map (fun j => snd (flag (repl l i (fst r)) j)) sched = map (fun j => snd (flag l j)) sched).
        { apply map_ext_in. intros j Hj. now rewrite Fl. }
        rewrite E, E', orb_assoc, Nat.add_assoc. reflexivity.
      + split; auto. split.
        * intros j [<-|Hj].
          -- exists q, r. split; auto. split; auto. rewrite Out1, repl_nth, Nat.eqb_refl by auto. reflexivity.
          -- destruct (In1 j Hj) as (q' & r' & A & B & C). rewrite repl_nth in A by auto. destruct (Nat.eqb_spec i j); [congruence|]. eauto.
        * intros j Hj. rewrite Out1 by (intros K; apply Hj; now right). rewrite repl_nth by auto.
          destruct (Nat.eqb_spec i j); [subst; exfalso; apply Hj; now left|auto].
  Qed.
  Lemma fold_bwd : forall sched l fl, NoDup sched -> (forall i, In i sched -> exists q r, nth_error l i = Some q /\ body q = Ok r) ->
    exists s', foldM pstep sched (pack l, fl) = Ok s'.
  Proof.
    induction sched as [|i sched IH]; intros l fl ND H; cbn; [eauto|]. inversion ND as [|? ? Ni ND']; subst.
    destruct (H i (or_introl eq_refl)) as (q & r & Eq & Er). assert (Hi : (i < length l)%nat) by (apply nth_error_Some; congruence).
    assert (E : pstep (pack l, fl) i = Ok (pack (repl l i (fst r)), (fst fl || fst (snd r), (snd fl + snd (snd r))%nat))).
    { unfold pstep. cbn [fst snd]. rewrite getp_pack, Eq. cbn [bind]. rewrite Er. cbn [bind]. rewrite putp_pack by auto. reflexivity. }
    rewrite E. cbn [bind].
    apply IH; auto. intros j Hj. destruct (H j (or_intror Hj)) as (q' & r' & A & B). exists q', r'. rewrite repl_nth by auto.
    destruct (Nat.eqb_spec i j); [congruence|auto].
  Qed.

  (** The whole loop. *)
  Definition results (rs : list (P1 Ar * Flags)) : Particles Ar * Flags :=
    (pack (map fst rs), (existsb (fun r => fst (snd r)) rs, list_sum (map (fun r => snd (snd r)) rs))).

  Lemma perm_seq : forall sched n, Permutation sched (seq 0 n) -> NoDup sched /\ (forall i, In i sched <-> (i < n)%nat).
  Proof.
    intros sched n H. split; [eapply Permutation_NoDup; [symmetry; eassumption|apply seq_NoDup]|].
    intros i. split; intros K; [apply (Permutation_in _ H), in_seq in K; lia|apply (Permutation_in _ (Permutation_sym H)), in_seq; lia].
  Qed.
  Lemma existsb_perm : forall X (f : X -> bool) l l', Permutation l l' -> existsb f l = existsb f l'.
  Proof.
    intros X f l l' H. apply eq_true_iff_eq. rewrite !existsb_exists. split; intros (x & Hx & E); exists x; split; auto;
      [apply (Permutation_in _ H Hx)|apply (Permutation_in _ (Permutation_sym H) Hx)].
  Qed.
  Lemma list_sum_perm : forall l l', Permutation l l' -> list_sum l = list_sum l'.
  Proof. intros l l' H. induction H; unfold list_sum in *; cbn [fold_right] in *; lia. Qed.
  Lemma seq_map_nth : forall X Y (f : X -> Y) (g : nat -> Y) l, (forall i x, nth_error l i = Some x -> g i = f x) -> map g (seq 0 (length l)) = map f l.
  Proof.
    intros X Y f g l H. apply nth_error_ext. intros j. rewrite nth_error_seq_map, nth_error_map. destruct (Nat.ltb_spec j (length l)) as [L|L].
    - destruct (nth_error l j) eqn:E; [|apply nth_error_None in E; lia]. cbn. now rewrite (H j x).
    - apply nth_error_None in L. now rewrite L.
  Qed.

  Lemma F2_length : forall X Y (Q : X -> Y -> Prop) l l', Forall2 Q l l' -> length l = length l'.
  Proof. intros X Y Q l l' H. induction H; cbn; lia. Qed.
  Lemma mapM_exists : forall l, (forall q, In q l -> exists r, body q = Ok r) -> exists rs, mapM body l = Ok rs.
  Proof.
    intros l K. induction l as [|q l IH]; [exists []; reflexivity|]. destruct (K q (or_introl eq_refl)) as (r & Er).
    destruct IH as (rs & Ers); [intros; apply K; now right|]. exists (r :: rs). cbn. now rewrite Er, Ers.
  Qed.
  Lemma ploop_res : forall sched l rs s', Permutation sched (seq 0 (length l)) -> mapM body l = Ok rs ->
    foldM pstep sched (pack l, (false, 0%nat)) = Ok s' -> s' = results rs.
  Proof.
    intros sched l rs s' Hp M E. destruct (perm_seq _ _ Hp) as (ND & HI). destruct (fold_fwd _ _ _ _ ND E) as (l' & -> & Ll & A & _).
    apply mapM_Ok in M. assert (Ln : length l = length rs) by (eapply F2_length; eauto).
    assert (At : forall i r, nth_error rs i = Some r -> exists q, nth_error l i = Some q /\ body q = Ok r).
    { intros i r Er. assert (Hi : (i < length l)%nat) by (rewrite Ln; apply nth_error_Some; congruence).
      destruct (nth_error l i) as [q|] eqn:E0; [|apply nth_error_None in E0; lia].
      destruct (Forall2_nth_error _ _ _ _ _ M i q E0) as (r2 & E4 & E5). exists q. split; congruence. }
    unfold results. f_equal.
    + f_equal. apply nth_error_ext. intros i. rewrite nth_error_map. destruct (nth_error rs i) as [r|] eqn:Er; cbn.
      * destruct (At i r Er) as (q & E1 & E2). destruct (A i) as (q' & r' & E3 & E4 & E5).
        { apply HI. apply nth_error_Some. congruence. }
        congruence.
      * apply nth_error_None in Er. apply nth_error_None. lia.
    + assert (Fl : forall i r, nth_error rs i = Some r -> flag l i = snd r).
      { intros i r Er. destruct (At i r Er) as (q & E1 & E2). unfold flag. now rewrite E1, E2. }
      unfold fsum. cbn [fst snd orb Nat.add]. rewrite (existsb_perm _ _ _ _ Hp). rewrite (list_sum_perm _ _ (Permutation_map _ Hp)). rewrite Ln.
      rewrite (seq_map_nth _ _ (fun r => snd (snd r)) _ rs) by (intros i r Er; cbv beta; now rewrite (Fl i r Er)). f_equal.
      assert (EB : forall (f : nat -> bool) (g : P1 Ar * Flags -> bool) L, map f L = map g rs -> existsb f L = existsb g rs).
      { intros f g. clear. induction rs; intros [|r L] E; try discriminate; auto. cbn in *. injection E as E1 E2. rewrite E1. f_equal. now apply IHrs. }
      apply EB. apply seq_map_nth. intros i r Er. now rewrite (Fl i r Er).
  Qed.

  Theorem ploop_Ok : forall sched l s', Permutation sched (seq 0 (length l)) ->
    (ploop body sched (pack l) = Ok s' <-> exists rs, mapM body l = Ok rs /\ s' = results rs).
  Proof.
    intros sched l s' Hp. destruct (perm_seq _ _ Hp) as (ND & HI). rewrite ploop_fold. split.
    - intros H. destruct (fold_fwd _ _ _ _ ND H) as (l' & _ & Ll & A & _).
      destruct (mapM_exists l) as (rs & M).
      { intros q Hq. apply In_nth_error in Hq. destruct Hq as (i & Ei). destruct (A i) as (q' & r & E1 & E2 & _).
        - apply HI. apply nth_error_Some. congruence.
        - exists r. congruence. }
      exists rs. split; auto. eapply ploop_res; eauto.
    - intros (rs & M & ->). destruct (fold_bwd sched l (false, 0%nat) ND) as (s' & E).
      { intros i Hi. apply HI in Hi. destruct (nth_error l i) as [q|] eqn:E; [|apply nth_error_None in E; lia].
        apply mapM_Ok in M. destruct (Forall2_nth_error _ _ _ _ _ M i q E) as (r & _ & Er). eauto. }
      transitivity (Ok s'); [exact E|]. f_equal. eapply ploop_res; eauto.
  Qed.

  Theorem ploop_any_order : forall s1 s2 l, (forall q, body q <> NoFuel) -> Permutation s1 (seq 0 (length l)) -> Permutation s2 (seq 0 (length l)) ->
    ploop body s1 (pack l) = ploop body s2 (pack l).
  Proof.
    intros s1 s2 l Hb H1 H2.
    assert (NFg : forall P i, getp P i <> NoFuel) by (intros; unfold getp; cbv zeta; repeat (apply bind_nf; [apply rd_nf|intros]); discriminate).
    assert (NFp : forall P i q, putp P i q <> NoFuel) by (intros; unfold putp; cbv zeta; repeat (apply bind_nf; [apply upd_nf|intros]); discriminate).
    assert (NF : forall s, ploop body s (pack l) <> NoFuel).
    { intros s. unfold ploop. apply foldM_nf. intros st i _. apply bind_nf; [apply NFg|intros]. apply bind_nf; [apply Hb|intros]. apply bind_nf; [apply NFp|discriminate]. }
    apply res_eq; auto. intros x. now rewrite (ploop_Ok s1), (ploop_Ok s2).
  Qed.
End Ploop.
