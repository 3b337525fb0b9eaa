(** * PropGhost1D: C92, ghost particles of a one-cell-wide column. *)
From Coq Require Import Reals ZArith Lra Lia List Bool Permutation.
From Verif Require Import Num NumR Tools Lin Types Transfer Pbc Spec LinProofs ResProofs PloopProofs PbcProofs ExStep ExMech.
Import ListNotations.
Local Open Scope R_scope.

Section Add.
  Context {G : Geo R}.
  Definition pair1D (p : Par R) (q : P1 R) : list (P1 R) :=
    [set_x q (vadd (q_x q) (vset vzero 0 (dx p))); set_x q (vsub (q_x q) (vset vzero 0 (dx p)))].
  Lemma add1D_spec : forall p l, pbcAdd1D p (pack l) (length l) = Ok (ext l (flat_map (pair1D p) l), (2 * Z.of_nat (length l))%Z).
  Proof.
    intros p l. unfold pbcAdd1D. cbv zeta. rewrite <- ext_nil.
    match goal with |- foldM ?f _ _ = _ => set (st := f) end.
    assert (K : forall a b c gs, l = a ++ b -> foldM st (seq (length a) (length b)) (ext l gs, c) = Ok (ext l (gs ++ flat_map (pair1D p) b), (c + 2 * Z.of_nat (length b))%Z)).
    { intros a b. revert a. induction b as [|q b IH]; intros a c gs E; [cbn; now rewrite app_nil_r, Z.add_0_r|].
      assert (Eq : nth_error l (length a) = Some q) by (rewrite E, nth_error_app2, Nat.sub_diag by lia; reflexivity).
      assert (S1 : st (ext l gs, c) (length a) = Ok (ext l (gs ++ pair1D p q), (c + 2)%Z)).
      { unfold st. cbn [fst snd]. change (p_x (ext l gs)) with (map q_x l ++ map q_x gs). rewrite (rd_app _ q_x l gs _ q Eq). cbn [bind].
        rewrite (push_spec l gs _ q _ Eq). cbn [bind]. rewrite (push_spec l _ _ q _ Eq). cbn [bind]. rewrite <- app_assoc. reflexivity. }
      cbn [length seq foldM]. rewrite S1. cbn [bind]. specialize (IH (a ++ [q]) (c + 2)%Z (gs ++ pair1D p q)). rewrite app_length in IH. cbn [length] in IH. rewrite Nat.add_1_r in IH.
      rewrite IH by (rewrite E, <- app_assoc; reflexivity). cbn [flat_map]. rewrite app_assoc. f_equal. f_equal. lia. }
    specialize (K [] l 0%Z [] eq_refl). cbn [length] in K. rewrite K. reflexivity.
  Qed.
  Lemma nth_pairs : forall X (f : P1 R -> X) p l i q, nth_error l i = Some q -> exists a b, pair1D p q = [a; b] /\
    nth_error (map f l ++ map f (flat_map (pair1D p) l)) (length l + 2 * i) = Some (f a) /\ nth_error (map f l ++ map f (flat_map (pair1D p) l)) (length l + 2 * i + 1) = Some (f b).
  Proof.
    intros X f p l i q E. eexists _, _. split; [reflexivity|].
    rewrite !nth_error_app2 by (rewrite map_length; lia). rewrite map_length, !nth_error_map.
    replace (length l + 2 * i - length l)%nat with (2 * i)%nat by lia. replace (length l + 2 * i + 1 - length l)%nat with (2 * i + 1)%nat by lia.
    assert (K : forall m i, nth_error m i = Some q -> nth_error (flat_map (pair1D p) m) (2 * i) = Some (set_x q (vadd (q_x q) (vset vzero 0 (dx p)))) /\ nth_error (flat_map (pair1D p) m) (2 * i + 1) = Some (set_x q (vsub (q_x q) (vset vzero 0 (dx p))))).
    { intros m. induction m as [|y m IH]; intros [|j] Hj; try discriminate; [injection Hj as ->; split; reflexivity|]. cbn [nth_error] in Hj. destruct (IH j Hj) as (A1 & A2).
      replace (2 * S j)%nat with (S (S (2 * j))) by lia. replace (S (S (2 * j)) + 1)%nat with (S (S (2 * j + 1))) by lia. cbn [flat_map pair1D app nth_error]. auto. }
    destruct (K l i E) as (-> & ->). auto.
  Qed.
End Add.

(** Every particle gets one ghost a cell to the right and one a cell to the left, with its velocity, deformation, affine part
    and stress; the particles themselves stay as they are, and removing as many entries as were added restores the state. *)
Theorem C92_column_ghosts : forall (G : Geo R) (p : Par R) (P : Particles R) (n : nat), two_or_three G -> consistent P n ->
  exists P', pbcAdd1D p P n = Ok (P', (2 * Z.of_nat n)%Z) /\ length (p_x P') = (3 * n)%nat /\
    firstn n (p_x P') = p_x P /\ firstn n (p_v P') = p_v P /\ firstn n (p_F P') = p_F P /\ firstn n (p_B P') = p_B P /\ firstn n (p_tau P') = p_tau P /\
    p_pic P' = p_pic P /\ p_flip P' = p_flip P /\ p_hist P' = p_hist P /\
    (forall i x, nth_error (p_x P) i = Some x -> exists y z, nth_error (p_x P') (n + 2 * i) = Some y /\ nth_error (p_x P') (n + 2 * i + 1) = Some z /\
       vget y 0 = vget x 0 + dx p /\ vget z 0 = vget x 0 - dx p /\ forall k, (0 < k < dim)%nat -> vget y k = vget x k /\ vget z k = vget x k) /\
    (forall i s, (i < n)%nat -> s = 0%nat \/ s = 1%nat ->
       nth_error (p_v P') (n + 2 * i + s) = nth_error (p_v P) i /\ nth_error (p_F P') (n + 2 * i + s) = nth_error (p_F P) i /\
       nth_error (p_B P') (n + 2 * i + s) = nth_error (p_B P) i /\ nth_error (p_tau P') (n + 2 * i + s) = nth_error (p_tau P) i) /\
    pbcDel (2 * Z.of_nat n) P' = Ok P.
Proof.
  intros G p P n HG C. destruct (consistent_pack _ _ C) as (l & <- & ->).
  assert (Lp : length (flat_map (pair1D p) l) = (2 * length l)%nat) by (clear; induction l; cbn in *; lia).
  exists (ext l (flat_map (pair1D p) l)). split; [apply add1D_spec|]. split; [cbn; rewrite app_length, !map_length, Lp; lia|].
  assert (Ft : forall X (f : P1 R -> X), firstn (length l) (map f l ++ map f (flat_map (pair1D p) l)) = map f l).
  { intros. rewrite firstn_app, map_length, Nat.sub_diag, firstn_O, app_nil_r. apply firstn_all2. rewrite map_length. lia. }
  unfold ext. cbn [p_x p_v p_F p_B p_tau p_pic p_flip p_hist]. rewrite !Ft. do 8 (split; [reflexivity|]). split; [|split].
  - intros i x Hx. cbn in Hx. rewrite nth_error_map in Hx. destruct (nth_error l i) as [q|] eqn:E; [|discriminate]. cbn in Hx. injection Hx as <-.
    destruct (nth_pairs _ q_x p l i q E) as (a & b & Ep & A1 & A2). injection Ep as <- <-. eexists _, _. split; [exact A1|]. split; [exact A2|]. cbn [set_x q_x].
    destruct HG as [-> | ->]; cbn; (split; [numR; ring|]; split; [numR; ring|]; intros k Hk; destruct k as [|[|[|k]]]; try lia; cbn; numR; lra).
  - intros i s Hi Hs. destruct (nth_error l i) as [q|] eqn:E; [|apply nth_error_None in E; lia].
    assert (Q : forall X (f : P1 R -> X), (forall x, f (set_x q x) = f q) -> nth_error (map f l ++ map f (flat_map (pair1D p) l)) (length l + 2 * i + s) = nth_error (map f l) i).
    { intros X f Hf. destruct (nth_pairs _ f p l i q E) as (a & b & Ep & A1 & A2). injection Ep as <- <-. rewrite nth_error_map, E. cbn [option_map]. destruct Hs as [-> | ->]; [rewrite Nat.add_0_r, A1|rewrite A2]; now rewrite Hf. }
    cbn [pack p_v p_F p_B p_tau]. rewrite !Q by reflexivity. auto.
  - change (pbcDel (2 * Z.of_nat (length l)) (ext l (flat_map (pair1D p) l)) = Ok (pack l)). replace (2 * Z.of_nat (length l))%Z with (Z.of_nat (length (flat_map (pair1D p) l))) by lia. apply pbcDel_spec.
Qed.
(** Two particles, at (1/2, 1/4) and (-1/2, 3/4). *)
Example C92_ex : forall p, let P := two_particles (e2 1 2) (e2 3 4) mzero mzero mzero mzero in
  consistent P 2 /\ exists P', pbcAdd1D (G := Geo2 R) p P 2 = Ok (P', 4%Z) /\ exists z, nth_error (p_x P') 5 = Some z /\ vget z 0 = -1/2 - dx p.
Proof.
  intros p P. assert (C : consistent P 2) by (constructor; reflexivity). split; [exact C|].
  destruct (C92_column_ghosts _ p P 2 (or_introl eq_refl) C) as (P' & E & _ & _ & _ & _ & _ & _ & _ & _ & _ & X & _). exists P'. split; [exact E|].
  destruct (X 1%nat _ eq_refl) as (y & z & _ & Z & _ & V & _). exists z. split; [exact Z|exact V].
Qed.
Print Assumptions C92_column_ghosts.
