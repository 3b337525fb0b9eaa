(** * FloatSum: nodal masses in double precision as rounded sums of weights, in any order. *)
From Coq Require Import ZArith Reals Lra Lia List Bool Floats.SpecFloat Permutation.
From Flocq Require Import Core Plus_error Relative FLT.
From Verif Require Import Num NumF Tools Lin Types Remesh Transfer Spec SpecF SpecGridF ResProofs PlasticModels LinProofs GridProofs FloatBase FloatGrid.
Import ListNotations.
Local Open Scope R_scope.

Lemma fin_fmt : forall x, ffin x -> generic_format radix2 (FLT_exp (-1074) 53) (fval x).
Proof. intros x H. rewrite <- (rnd_id x H). change (FLT_exp (-1074) 53) with fx. apply generic_format_round; [apply (BinarySingleNaN.fexp_correct 53 1024); reflexivity|apply valid_rnd_N]. Qed.
Lemma add_rel : forall x y, ffin x -> ffin y -> Rabs (rnd (fval x + fval y) - (fval x + fval y)) <= eps / 2 * Rabs (fval x + fval y).
Proof.
  intros x y Hx Hy. destruct (FLT_plus_error_N_ex radix2 (-1074) 53 (fun z => negb (Z.even z)) (fval x) (fval y) (fin_fmt x Hx) (fin_fmt y Hy)) as (d & Hd & E).
  change (rnd (fval x + fval y)) with (round radix2 (FLT_exp (-1074) 53) ZnearestE (fval x + fval y)). rewrite E.
  replace ((fval x + fval y) * (1 + d) - (fval x + fval y)) with (d * (fval x + fval y)) by ring. rewrite Rabs_mult. apply Rmult_le_compat_r; [apply Rabs_pos|].
  eapply Rle_trans; [exact Hd|]. assert (U : u_ro radix2 53 = eps / 2) by (unfold u_ro, eps; cbn; lra). rewrite U.
  apply Rmult_le_reg_r with (1 + eps / 2); [unfold eps; lra|]. unfold Rdiv at 1. rewrite Rmult_assoc, Rinv_l by (unfold eps; lra). unfold eps. lra.
Qed.

(** [m] is, up to [c] roundings, the sum [S] of non-negative numbers that are zero or at least [wm]. *)
Definition wm : R := / 20000000000000000000000000.
Definition acc (c : nat) (m : F) (S : R) : Prop := ffin m /\ (S = 0 \/ wm <= S) /\ Rabs (fval m - S) <= INR c * eps * S.
Lemma acc_mono : forall c d m S, (c <= d)%nat -> acc c m S -> acc d m S.
Proof.
  intros c d m S H (A1 & A2 & A3). split; auto. split; auto. eapply Rle_trans; [exact A3|]. apply Rmult_le_compat_r; [destruct A2 as [->|?]; unfold wm in *; lra|].
  apply Rmult_le_compat_r; [apply Rlt_le; unfold eps; lra|]. now apply le_INR.
Qed.
Lemma acc_zero : acc 0 (S754_zero false) 0.
Proof. split; [split; auto|]. split; auto. unfold fval. cbn. rewrite Rminus_0_r, Rabs_R0. lra. Qed.
Lemma acc_leaf : forall w, ffin w -> wm <= fval w -> acc 0 w (fval w).
Proof. intros w Fw Hw. split; auto. split; auto. rewrite Rminus_diag_eq, Rabs_R0 by auto. cbn. lra. Qed.
Lemma acc_add : forall c m S w W, acc c m S -> acc c w W -> INR c * eps <= 1 -> S + W <= bpow radix2 500 -> acc (Datatypes.S c) (SFadd fprec femax m w) (S + W).
Proof.
  intros c m S w W (A1 & A2 & A3) (B1 & B2 & B3) Hc Hb. pose proof (pos_INR c) as C0. assert (E0 : 0 < eps) by (unfold eps; lra).
  assert (S0 : 0 <= S) by (destruct A2 as [->|?]; unfold wm in *; lra). assert (W0 : 0 <= W) by (destruct B2 as [->|?]; unfold wm in *; lra).
  set (k := INR c * eps) in *. assert (K0 : 0 <= k) by (unfold k; nra).
  assert (D : Rabs (fval m + fval w - (S + W)) <= k * (S + W)).
  { replace (fval m + fval w - (S + W)) with ((fval m - S) + (fval w - W)) by ring. eapply Rle_trans; [apply Rabs_triang|]. lra. }
  assert (Dm : Rabs (fval m + fval w) <= (1 + k) * (S + W)) by (apply Rabs_le_inv in D; apply Rabs_le; nra).
  destruct (fadd_spec m w A1 B1) as (F1 & F2).
  { apply rnd_small. eapply Rle_trans; [exact Dm|]. apply Rle_trans with (2 * bpow radix2 500); [nra|]. apply Rle_trans with (bpow radix2 501); [|apply bpow_le; lia]. change 501%Z with (1 + 500)%Z. rewrite (bpow_plus radix2 1 500). right. reflexivity. }
  split; auto. split.
  - destruct A2 as [->|A2]; destruct B2 as [->|B2]; [left; lra|right; lra|right; lra|right; lra].
  - rewrite F2, S_INR. pose proof (add_rel m w A1 B1) as E. set (t := fval m + fval w) in *.
    replace (rnd t - (S + W)) with ((rnd t - t) + (t - (S + W))) by ring. eapply Rle_trans; [apply Rabs_triang|].
    assert (eps / 2 * Rabs t <= eps / 2 * ((1 + k) * (S + W))) by (apply Rmult_le_compat_l; lra).
    replace ((INR c + 1) * eps * (S + W)) with (eps * (S + W) + k * (S + W)) by (unfold k; ring).
    assert (Q : 0 <= (1 - k) * (eps * (S + W))) by (apply Rmult_le_pos; [lra|apply Rmult_le_pos; lra]).
    assert (eps / 2 * ((1 + k) * (S + W)) <= eps * (S + W)) by lra. lra.
Qed.

Section Nodes.
  Variable L : Libm.
  Hint Extern 0 (Num F) => exact (NumF L) : typeclass_instances.
  Context {G : Geo F}.
  Variable p : Par F.
  Variable N : nat.

  (** What the visited nodes [items] give to node [j]. *)
  Definition at_node (j : nat) (it : Item F) : R := if (it_idx it =? Z.of_nat j)%Z && nltb w_min (it_w it) then fval (it_w it) else 0.
  Definition item_ok (it : Item F) : Prop := ffin (it_w it) /\ 0 <= fval (it_w it) <= 1 /\ (0 <= it_idx it < Z.of_nat N)%Z.

  Lemma w_min_F : ffin (@w_min F (NumF L)) /\ wm <= fval (@w_min F (NumF L)) <= 3 * wm.
  Proof.
    assert (E : @w_min F (NumF L) = S754_finite false 8711228593176025 (-136)) by (vm_compute; reflexivity). rewrite E, fval_fin. split; [split; reflexivity|].
    assert (B : bpow radix2 (-136) = / 87112285931760246646623899502532662132736) by reflexivity. rewrite B. cbn [sfZ]. unfold wm. lra.
  Qed.
  Lemma active_w : forall it, item_ok it -> nltb w_min (it_w it) = true -> wm <= fval (it_w it).
  Proof.
    intros it (Fw & _) H. destruct w_min_F as (Fm & Bm). change (nltb w_min (it_w it)) with (SFltb (@w_min F (NumF L)) (it_w it)) in H. rewrite flt_spec in H by auto.
    destruct (Rlt_bool_spec (fval (@w_min F (NumF L))) (fval (it_w it))); [lra|discriminate].
  Qed.
  Lemma at_node_bounds : forall j it, item_ok it -> 0 <= at_node j it <= 1.
  Proof. intros j it (_ & B & _). unfold at_node. destruct (_ && _); lra. Qed.


  (** ** Any property of a node that is kept by adding a weight and by merging two buffers *)
  Variable Q : nat -> Node F -> R -> Prop.
  Hypothesis Q_mono : forall c d nd S, (c <= d)%nat -> Q c nd S -> Q d nd S.
  Hypothesis Q_zero : Q 0 zero_node 0.
  Hypothesis Q_merge : forall c a b S W, Q c a S -> Q c b W -> INR c * eps <= 1 -> S + W <= bpow radix2 500 -> Q (Datatypes.S c) (node_add p a b) (S + W).
  Definition qinv (c : nat) (g : list (Node F)) (S : nat -> R) : Prop := length g = N /\ forall j nd, nth_error g j = Some nd -> Q c nd (S j).
  Definition Q_keeps (xp vp : TV) (B tau : TM) (mui : F) (it : Item F) : Prop :=
    forall c nd S, nltb w_min (it_w it) = true -> Q c nd S -> INR c * eps <= 1 -> S + 1 <= bpow radix2 500 -> Q (Datatypes.S c) (p2g_node p xp vp B tau mui it nd) (S + fval (it_w it)).

  Lemma item_step : forall xp vp B tau mui it g c S, Q_keeps xp vp B tau mui it -> item_ok it -> qinv c g S -> INR c * eps <= 1 -> (forall j, S j + 1 <= bpow radix2 500) ->
    exists g', p2g_item p xp vp B tau mui g it = Ok g' /\ qinv (Datatypes.S c) g' (fun j => S j + at_node j it).
  Proof.
    intros xp vp B tau mui it g c S HQ Hi (Lg & Hg) Hc HS. unfold p2g_item. destruct (nltb w_min (it_w it)) eqn:Ea.
    - pose proof Hi as (Fw & Bw & Ix). destruct (upd_Ok g (it_idx it) (p2g_node p xp vp B tau mui it)) as (g' & E & Ll & Hn); [rewrite Lg; lia|].
      exists g'. split; [exact E|]. split; [congruence|]. intros j nd Hj. rewrite Hn in Hj. unfold at_node. rewrite Ea, Bool.andb_true_r.
      destruct (Nat.eqb_spec (Z.to_nat (it_idx it)) j) as [Ej|Ej].
      + replace (it_idx it =? Z.of_nat j)%Z with true by (symmetry; apply Z.eqb_eq; lia). destruct (nth_error g j) as [nd0|] eqn:E0; [|discriminate]. cbn [option_map] in Hj. injection Hj as <-.
        apply HQ; auto.
      + replace (it_idx it =? Z.of_nat j)%Z with false by (symmetry; apply Z.eqb_neq; lia). rewrite Rplus_0_r. apply Q_mono with c; [lia|]. auto.
    - exists g. split; [reflexivity|]. split; auto. intros j nd Hj. unfold at_node. rewrite Ea, Bool.andb_false_r, Rplus_0_r. apply Q_mono with c; [lia|]. auto.
  Qed.
  Lemma qinv_ext : forall c g S S', (forall j, S j = S' j) -> qinv c g S -> qinv c g S'.
  Proof. intros c g S S' H (A1 & A2). split; auto. intros j nd Hj. rewrite <- H. auto. Qed.
  Lemma items_step : forall xp vp B tau mui items g c S, (forall it, In it items -> Q_keeps xp vp B tau mui it) -> (forall it, In it items -> item_ok it) -> qinv c g S ->
    INR (c + length items) * eps <= 1 -> (forall j, S j + INR (length items) <= bpow radix2 500) ->
    exists g', foldM (p2g_item p xp vp B tau mui) items g = Ok g' /\ qinv (c + length items) g' (fun j => S j + Rsum (at_node j) items).
  Proof.
    intros xp vp B tau mui items. assert (E0 : 0 < eps) by (unfold eps; lra). induction items as [|it items IH]; intros g c S HK Hi Hg Hc HS; cbn [foldM length Rsum].
    - exists g. split; auto. rewrite Nat.add_0_r. eapply qinv_ext; [|exact Hg]. intros; cbn; lra.
    - cbn [length] in Hc, HS. rewrite plus_INR, S_INR in Hc. pose proof (pos_INR (length items)) as P0. 
      destruct (item_step xp vp B tau mui it g c S) as (g1 & E1 & I1); [apply HK; now left|apply Hi; now left|auto|nra|intros j; specialize (HS j); rewrite S_INR in HS; lra|]. rewrite E1. cbn [bind].
      destruct (IH g1 (Datatypes.S c) (fun j => S j + at_node j it)) as (g2 & E2 & I2); auto.
      + intros; apply HK; now right.
      + intros; apply Hi; now right.
      + rewrite plus_INR, S_INR. nra.
      + intros j. specialize (HS j). rewrite S_INR in HS. pose proof (at_node_bounds j it (Hi it (or_introl eq_refl))). lra.
      + exists g2. split; auto. rewrite <- Nat.add_succ_comm. eapply qinv_ext; [|exact I2]. intros j. cbn. ring.
  Qed.

  (** ** Particles *)
  Variable axes : list (Axis F).
  Variable P : Particles F.
  Variable n : nat.
  Definition items_of (i : nat) : list (Item F) :=
    match rd (p_x P) (Z.of_nat i) with Ok x => match stencil base_p2g p axes x with Ok l => l | _ => [] end | _ => [] end.
  Hypothesis HC : consistent P n.
  Variable K : nat.
  Hypothesis HI : forall i, (i < n)%nat -> length (items_of i) = K /\ (forall it, In it (items_of i) -> item_ok it) /\
    exists x, rd (p_x P) (Z.of_nat i) = Ok x /\ stencil base_p2g p axes x = Ok (items_of i).

  Hypothesis HQ : forall i xp vp B tau mui it, (i < n)%nat -> rd (p_x P) (Z.of_nat i) = Ok xp -> rd (p_v P) (Z.of_nat i) = Ok vp -> rd (p_tau P) (Z.of_nat i) = Ok tau ->
    (nltb (flip_ratio p) (nofZ 0) = true -> rd (p_B P) (Z.of_nat i) = Ok B) -> In it (items_of i) -> Q_keeps xp vp B tau mui it.

  Lemma particle_step : forall i g c S, (i < n)%nat -> qinv c g S -> INR (c + K) * eps <= 1 -> (forall j, S j + INR K <= bpow radix2 500) ->
    exists g', p2g_particle p axes P g i = Ok g' /\ qinv (c + K) g' (fun j => S j + Rsum (at_node j) (items_of i)).
  Proof.
    intros i g c S Hi Hg Hc HS. destruct (HI i Hi) as (Lk & Ok1 & x & Ex & Es).
    assert (RD : forall X (l : list X), length l = n -> exists y, rd l (Z.of_nat i) = Ok y) by (intros X l Hl; apply rd_some; lia).
    destruct HC as [C1 C2 C3 C4 C5 C6 C7 C8].
    unfold p2g_particle. cbv zeta. rewrite Ex. cbn [bind].
    destruct (RD _ (p_tau P)) as (tau & Etau); [congruence|]. rewrite Etau. cbn [bind]. destruct (RD _ (p_v P)) as (v & Ev); [congruence|]. rewrite Ev. cbn [bind].
    destruct (RD _ (p_B P)) as (B & EB); [congruence|]. destruct (RD _ (p_hist P)) as (hs & Eh); [congruence|].
    match goal with |- exists g', bind ?r _ = _ /\ _ => assert (QB : exists B', r = Ok B' /\ (nltb (flip_ratio p) (nofZ 0) = true -> rd (p_B P) (Z.of_nat i) = Ok B')) by (destruct (nltb (flip_ratio p) (nofZ 0)); [exists B; auto|eexists; split; [reflexivity|discriminate]]); destruct QB as (B' & -> & EB') end. cbn [bind].
    match goal with |- exists g', bind ?r _ = _ /\ _ => assert (QM : exists mu', r = Ok mu') by (destruct (use_mibf p); [rewrite Eh; cbn [bind]|]; eexists; reflexivity); destruct QM as (mu' & ->) end. cbn [bind].
    rewrite Es. cbn [bind]. rewrite <- Lk in Hc, HS |- *. apply items_step; auto. intros it Hit. eapply HQ; eauto.
  Qed.
  Lemma thread_step : forall th g c S, (forall i, In i th -> (i < n)%nat) -> qinv c g S ->
    INR (c + length th * K) * eps <= 1 -> (forall j, S j + INR (length th * K) <= bpow radix2 500) ->
    exists g', p2g_thread p axes P g th = Ok g' /\ qinv (c + length th * K) g' (fun j => S j + Rsum (fun i => Rsum (at_node j) (items_of i)) th).
  Proof.
    assert (E0 : 0 < eps) by (unfold eps; lra). unfold p2g_thread. induction th as [|i th IH]; intros g c S Hi Hg Hc HS; cbn [foldM length Rsum].
    - exists g. split; auto. rewrite Nat.add_0_r. eapply qinv_ext; [|exact Hg]. intros; cbn; lra.
    - cbn [length Nat.mul] in Hc, HS. rewrite !plus_INR in Hc. pose proof (pos_INR (length th * K)) as P0.
      destruct (particle_step i g c S) as (g1 & E1 & I1); [apply Hi; now left|auto|rewrite plus_INR; nra|intros j; specialize (HS j); rewrite plus_INR in HS; lra|]. rewrite E1. cbn [bind].
      assert (Bi : forall j, 0 <= Rsum (at_node j) (items_of i) <= INR K).
      { intros j. destruct (HI i (Hi i (or_introl eq_refl))) as (Lk & Ok1 & _). split; [apply Rsum_nonneg; intros; now apply at_node_bounds; auto|].
        rewrite <- Lk. eapply Rle_trans; [apply (Rsum_le _ (fun _ => 1)); intros it Hit; apply at_node_bounds; auto|]. rewrite Rsum_const. lra. }
      destruct (IH g1 (c + K)%nat (fun j => S j + Rsum (at_node j) (items_of i))) as (g2 & E2 & I2); auto.
      + intros; apply Hi; now right.
      + rewrite !plus_INR. nra.
      + intros j. specialize (HS j). specialize (Bi j). rewrite plus_INR in HS. lra.
      + exists g2. split; auto. cbn [Nat.mul]. rewrite Nat.add_assoc. eapply qinv_ext; [|exact I2]. intros j. cbn. ring.
  Qed.
  Lemma merge_step : forall g l c S W, qinv c g S -> qinv c l W -> INR c * eps <= 1 -> (forall j, S j + W j <= bpow radix2 500) ->
    qinv (Datatypes.S c) (merge p g l) (fun j => S j + W j).
  Proof.
    intros g l c S W (L1 & I1) (L2 & I2) Hc HS. split; [unfold merge; rewrite map_length, combine_length; lia|].
    intros j nd Hj. unfold merge in Hj. rewrite nth_error_map in Hj. destruct (nth_error (combine g l) j) as [[a b]|] eqn:E; [|discriminate]. cbn [option_map fst snd] in Hj. injection Hj as <-.
    assert (Qn : nth_error g j = Some a /\ nth_error l j = Some b).
    { clear - E. revert l j E. induction g as [|x g IH]; intros [|y l] [|j] E; try discriminate; cbn in *; [injection E as -> ->; auto|auto]. }
    destruct Qn as (Qa & Qb). apply Q_merge; auto.
  Qed.
  Lemma qinv_zero : forall c, qinv c (repeat zero_node N) (fun _ => 0).
  Proof.
    intros c. split; [apply repeat_length|]. intros j nd Hj. apply nth_error_In, repeat_spec in Hj. subst nd. apply Q_mono with 0%nat; [lia|]. exact Q_zero.
  Qed.
  Lemma accumulate_Q : forall sched, Permutation (concat sched) (seq 0 n) -> INR (n * K + length sched) * eps <= 1 -> 
    exists g, p2g_accumulate p axes P sched (repeat zero_node N) = Ok g /\ qinv (n * K + length sched) g (fun j => Rsum (fun i => Rsum (at_node j) (items_of i)) (seq 0 n)).
  Proof.
    intros sched Hs Hc. assert (E0 : 0 < eps) by (unfold eps; lra).
    assert (Hin : forall th, In th sched -> forall i, In i th -> (i < n)%nat).
    { intros th Ht i Hi. assert (In i (concat sched)) by (apply in_concat; eauto). apply (Permutation_in _ Hs) in H. apply in_seq in H. lia. }
    assert (Hlen : length (concat sched) = n) by (rewrite (Permutation_length Hs), seq_length; auto).
    assert (Bi : forall i j, (i < n)%nat -> 0 <= Rsum (at_node j) (items_of i) <= INR K).
    { intros i j Hi. destruct (HI i Hi) as (Lk & Ok1 & _). split; [apply Rsum_nonneg; intros; now apply at_node_bounds; auto|].
      rewrite <- Lk. eapply Rle_trans; [apply (Rsum_le _ (fun _ => 1)); intros it Hit; apply at_node_bounds; auto|]. rewrite Rsum_const. lra. }
    assert (Bl : forall l j, (forall i, In i l -> (i < n)%nat) -> 0 <= Rsum (fun i => Rsum (at_node j) (items_of i)) l <= INR (length l * K)).
    { intros l j Hl. split; [apply Rsum_nonneg; intros; now apply Bi; auto|]. rewrite mult_INR, <- Rsum_const. apply Rsum_le. intros i Hi. apply Bi; auto. }
    assert (Big : INR (n * K) <= bpow radix2 60).
    { rewrite plus_INR in Hc. pose proof (pos_INR (length sched)). apply Rle_trans with (/ eps); [apply Rmult_le_reg_r with eps; auto; rewrite Rinv_l by lra; nra|]. unfold eps. rewrite Rinv_inv. cbn. lra. }
    assert (B60 : bpow radix2 60 + bpow radix2 60 <= bpow radix2 500) by (apply Rle_trans with (bpow radix2 61); [cbn; lra|apply bpow_le; lia]).
    unfold p2g_accumulate. rewrite repeat_length.
    assert (Kk : forall todo done, sched = done ++ todo -> forall g, qinv (n * K + length done) g (fun j => Rsum (fun i => Rsum (at_node j) (items_of i)) (concat done)) ->
      exists g', foldM (fun g th => l <- p2g_thread p axes P (repeat zero_node N) th ;; Ok (merge p g l)) todo g = Ok g' /\ qinv (n * K + length sched) g' (fun j => Rsum (fun i => Rsum (at_node j) (items_of i)) (concat sched))).
    { induction todo as [|th todo IH]; intros done Es g Hg; cbn [foldM].
      - exists g. split; auto. rewrite app_nil_r in Es. subst done. exact Hg.
      - assert (Lth : (length th <= n)%nat) by (rewrite <- Hlen, Es, concat_app, app_length; cbn; rewrite app_length; lia).
        assert (Ld : (length (concat done) <= n)%nat) by (rewrite <- Hlen, Es, concat_app, app_length; lia).
        assert (Lt : (length done < length sched)%nat) by (rewrite Es, app_length; cbn; lia).
        assert (Ith : forall i, In i th -> (i < n)%nat) by (apply Hin; rewrite Es; apply in_or_app; right; now left).
        assert (Idn : forall i, In i (concat done) -> (i < n)%nat) by (intros i Hi; apply in_concat in Hi; destruct Hi as (t & H1 & H2); eapply Hin; [|exact H2]; rewrite Es; apply in_or_app; now left).
        assert (Ql : INR (length th * K) <= INR (n * K)) by (apply le_INR; nia). assert (Q' : INR (length (concat done) * K) <= INR (n * K)) by (apply le_INR; nia).
        assert (Hc' : INR (n * K) * eps + INR (length sched) * eps <= 1) by (rewrite plus_INR in Hc; lra). pose proof (pos_INR (length sched)) as Q0. pose proof (pos_INR (length done)) as Q1. apply lt_INR in Lt.
        destruct (thread_step th (repeat zero_node N) 0 (fun _ => 0) Ith (qinv_zero 0)) as (l & El & Il).
        { cbn [Nat.add]. nra. } { intros j. pose proof (bpow_ge_0 radix2 60). lra. }
        rewrite El. cbn [bind].
        destruct (IH (done ++ [th])) with (g := merge p g l) as (g' & E' & I').
        + rewrite Es, <- app_assoc. reflexivity.
        + replace (n * K + length (done ++ [th]))%nat with (Datatypes.S (n * K + length done)) by (rewrite app_length; cbn; lia).
          eapply qinv_ext; [|apply (merge_step g l (n * K + length done) (fun j => Rsum (fun i => Rsum (at_node j) (items_of i)) (concat done)) (fun j => 0 + Rsum (fun i => Rsum (at_node j) (items_of i)) th)); [exact Hg| | |]].
          * intros j. cbn beta. rewrite concat_app, Rsum_app. cbn [concat]. rewrite app_nil_r. ring.
          * destruct Il as (Il1 & Il2). split; auto. intros j nd Hj. eapply Q_mono; [|apply Il2; exact Hj]. cbn. nia.
          * rewrite plus_INR. nra.
          * intros j. pose proof (Bl th j Ith). pose proof (Bl (concat done) j Idn). lra.
        + exists g'. auto. }
    destruct (Kk sched [] eq_refl (repeat zero_node N)) as (g & E & I).
    - cbn [concat Rsum]. apply qinv_zero.
    - exists g. split; auto. eapply qinv_ext; [|exact I]. intros j. cbn beta. now apply Rsum_perm.
  Qed.
End Nodes.

(** ** The masses *)
Section Masses.
  Variable L : Libm.
  Hint Extern 0 (Num F) => exact (NumF L) : typeclass_instances.
  Context {G : Geo F}.
  Variable p : Par F.
  Variable N : nat.
  Variable axes : list (Axis F).
  Variable P : Particles F.
  Variable n : nat.
  Hypothesis HC : consistent P n.
  Variable K : nat.
  Hypothesis HI : forall i, (i < n)%nat -> length (items_of L p axes P i) = K /\ (forall it, In it (items_of L p axes P i) -> item_ok N it) /\
    exists x, rd (p_x P) (Z.of_nat i) = Ok x /\ stencil base_p2g p axes x = Ok (items_of L p axes P i).
  Definition massQ (c : nat) (nd : Node F) (S : R) : Prop := acc c (nd_m nd) S.
  Lemma massQ_keeps : forall xp vp B tau mui it, item_ok N it -> Q_keeps L p massQ xp vp B tau mui it.
  Proof.
    intros xp vp B tau mui it Hi c nd S Ea Hq Hc HS. unfold massQ in *. cbn [p2g_node nd_m]. pose proof Hi as (Fw & Bw & _). apply acc_add; auto.
    - apply acc_mono with 0%nat; [lia|]. apply acc_leaf; auto. eapply active_w; eauto.
    - lra.
  Qed.
  Lemma massQ_merge : forall c a b S W, massQ c a S -> massQ c b W -> INR c * eps <= 1 -> S + W <= bpow radix2 500 -> massQ (Datatypes.S c) (node_add p a b) (S + W).
  Proof. intros c a b S W H1 H2 Hc HS. unfold massQ in *. cbn [node_add nd_m]. now apply acc_add. Qed.
  Lemma accumulate_F : forall sched, Permutation (concat sched) (seq 0 n) -> INR (n * K + length sched) * eps <= 1 -> 
    exists g, p2g_accumulate p axes P sched (repeat zero_node N) = Ok g /\ qinv N massQ (n * K + length sched) g (fun j => Rsum (fun i => Rsum (at_node L j) (items_of L p axes P i)) (seq 0 n)).
  Proof.
    intros sched Hs Hc. apply accumulate_Q; auto.
    - intros c d nd S H1 H2. unfold massQ in *. now apply acc_mono with c.
    - exact acc_zero.
    - exact massQ_merge.
    - intros i xp vp B tau mui it Hi _ _ _ _ Hit. apply massQ_keeps. destruct (HI i Hi) as (_ & H & _). auto.
  Qed.
End Masses.
