(** * PbcProofs: periodic ghost particles. *)
From Coq Require Import Reals ZArith Lra Lia List Bool Permutation.
From Verif Require Import Num NumR Lin Types Transfer Pbc Spec LinProofs ResProofs PloopProofs.
Import ListNotations.
Local Open Scope R_scope.

Section Pbc.
  Context {Ar : Type} {NA : Num Ar} {G : Geo Ar}.

  (** Arrays with ghosts: pic, flip and the history arrays are not extended. *)
  Definition ext (l gs : list (P1 Ar)) : Particles Ar :=
    mkParticles (map q_x l ++ map q_x gs) (map q_v l ++ map q_v gs) (map q_pic l) (map q_flip l) (map q_h l)
      (map q_F l ++ map q_F gs) (map q_B l ++ map q_B gs) (map q_tau l ++ map q_tau gs).
  Definition ghost (p : Par Ar) (sf : Z) (q : P1 Ar) : list (P1 Ar) :=
    match pbc_image p sf (q_x q) with Some x' => [set_x q x'] | None => [] end.
  Definition ghosts (p : Par Ar) (sf : Z) (l : list (P1 Ar)) (sched : list nat) : list (P1 Ar) :=
    flat_map (fun i => match nth_error l i with Some q => ghost p sf q | None => [] end) sched.

  Lemma ext_nil : forall l, ext l [] = pack l.
  Proof. intros. unfold ext, pack. now rewrite !app_nil_r. Qed.
  Lemma rd_app : forall X (f : P1 Ar -> X) l gs i q, nth_error l i = Some q -> rd (map f l ++ map f gs) (Z.of_nat i) = Ok (f q).
  Proof.
    intros X f l gs i q E. rewrite rd_nat, nth_error_app1 by (rewrite map_length; apply nth_error_Some; congruence).
    rewrite nth_error_map, E. reflexivity.
  Qed.
  Lemma push_spec : forall l gs i q x, nth_error l i = Some q -> push_copy (ext l gs) i x = Ok (ext l (gs ++ [set_x q x])).
  Proof.
    intros l gs i q x E. unfold push_copy, ext. cbn [p_x p_v p_pic p_flip p_hist p_F p_B p_tau]. cbv zeta.
    rewrite (rd_app _ q_v l gs i q E), (rd_app _ q_F l gs i q E), (rd_app _ q_B l gs i q E), (rd_app _ q_tau l gs i q E). cbn [bind].
    rewrite !map_app, !app_assoc. reflexivity.
  Qed.
  Lemma add_fold : forall p sf l sched gs n, (forall i, In i sched -> (i < length l)%nat) ->
    foldM (pbc_add_step p sf) sched (ext l gs, n) = Ok (ext l (gs ++ ghosts p sf l sched), (n + Z.of_nat (length (ghosts p sf l sched)))%Z).
  Proof.
    intros p sf l sched. induction sched as [|i sched IH]; intros gs n H.
    - cbn. now rewrite app_nil_r, Z.add_0_r.
    - assert (Hi : (i < length l)%nat) by (apply H; now left). destruct (nth_error l i) as [q|] eqn:E; [|apply nth_error_None in E; lia].
      assert (St : pbc_add_step p sf (ext l gs, n) i = Ok (ext l (gs ++ ghost p sf q), (n + Z.of_nat (length (ghost p sf q)))%Z)).
      { unfold pbc_add_step, ghost. cbn [fst snd]. change (p_x (ext l gs)) with (map q_x l ++ map q_x gs). rewrite (rd_app _ q_x l gs i q E). cbn [bind].
        destruct (pbc_image p sf (q_x q)) as [x'|].
        - rewrite (push_spec l gs i q x' E). reflexivity.
        - cbn. now rewrite app_nil_r, Z.add_0_r. }
      cbn [foldM]. rewrite St. cbn [bind]. rewrite IH by (intros; apply H; now right). unfold ghosts. cbn [flat_map]. rewrite E. fold (ghosts p sf l sched).
      rewrite app_assoc, app_length, Nat2Z.inj_add, Z.add_assoc. reflexivity.
  Qed.
  Theorem pbcAdd_spec : forall p sf l sched, (forall i, In i sched -> (i < length l)%nat) ->
    pbcAdd p sf sched (pack l) = Ok (ext l (ghosts p sf l sched), Z.of_nat (length (ghosts p sf l sched))).
  Proof. intros p sf l sched H. unfold pbcAdd. rewrite <- ext_nil, add_fold by auto. reflexivity. Qed.

  Lemma erase_app : forall X (a b : list X), erase_last (Z.of_nat (length b)) (a ++ b) = Ok a.
  Proof.
    intros. unfold erase_last. rewrite app_length. destruct (Z.ltb_spec (Z.of_nat (length b)) 0); [lia|].
    destruct (Z.ltb_spec (Z.of_nat (length a + length b)) (Z.of_nat (length b))); [lia|]. cbn.
    rewrite Nat2Z.id. replace (length a + length b - length b)%nat with (length a) by lia. now rewrite firstn_app, Nat.sub_diag, firstn_all, app_nil_r.
  Qed.
  Theorem pbcDel_spec : forall l gs, pbcDel (Z.of_nat (length gs)) (ext l gs) = Ok (pack l).
  Proof.
    intros. unfold pbcDel, ext, pack. cbn [p_x p_v p_pic p_flip p_hist p_F p_B p_tau].
    rewrite <- (map_length q_x gs), erase_app, (map_length q_x gs).
    rewrite <- (map_length q_v gs), erase_app, (map_length q_v gs).
    rewrite <- (map_length q_F gs), erase_app, (map_length q_F gs).
    rewrite <- (map_length q_B gs), erase_app, (map_length q_B gs).
    rewrite <- (map_length q_tau gs), erase_app. reflexivity.
  Qed.

  Lemma ghosts_In : forall p sf l sched g, Permutation sched (seq 0 (length l)) ->
    (In g (ghosts p sf l sched) <-> exists q, In q l /\ exists x', pbc_image p sf (q_x q) = Some x' /\ g = set_x q x').
  Proof.
    intros p sf l sched g Hp. unfold ghosts. rewrite in_flat_map. split.
    - intros (i & Hi & K). destruct (nth_error l i) as [q|] eqn:E; [|destruct K]. unfold ghost in K. exists q. split; [eapply nth_error_In; eauto|].
      destruct (pbc_image p sf (q_x q)) as [x'|]; [|destruct K]. destruct K as [<-|[]]. eauto.
    - intros (q & Hq & x' & E & ->). apply In_nth_error in Hq. destruct Hq as (i & Ei). exists i. split.
      + apply (Permutation_in _ (Permutation_sym Hp)), in_seq. cbn. split; [lia|]. apply nth_error_Some. congruence.
      + rewrite Ei. unfold ghost. rewrite E. now left.
  Qed.
  Lemma ghosts_perm : forall p sf l s1 s2, Permutation s1 s2 -> Permutation (ghosts p sf l s1) (ghosts p sf l s2).
  Proof. intros. unfold ghosts. now apply Permutation_flat_map. Qed.
End Pbc.
