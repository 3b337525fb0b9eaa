(** * FloatGather: sums over a stencil of 4^d nodes in double precision. *)
From Coq Require Import ZArith Reals Lra Lia List Bool Floats.SpecFloat Permutation.
From Flocq Require Import Core.
From Verif Require Import Num NumF Tools Lin Types Remesh Transfer Spec SpecF SpecGridF ResProofs PlasticModels LinProofs GridProofs FloatBase FloatGrid FloatKernel FloatPbc FloatSum FloatVel PropGridF.
Import ListNotations.
Local Open Scope R_scope.

Lemma mgetF : forall (G : Geo F), two_or_threeF G -> forall (f : nat -> nat -> F) k l, (k < dim)%nat -> (l < dim)%nat -> mget (mtab f) k l = f k l.
Proof. intros G [-> | ->] f k l Hk Hl; destruct k as [|[|[|k]]]; destruct l as [|[|[|l]]]; cbn in Hk, Hl; try lia; reflexivity. Qed.

(** A weight plus a little, so that products with it do not underflow. *)
Definition tw : R := bpow radix2 (-300).
Definition wsum {G : Geo F} (items : list (Item F)) : R := Rsum (fun it => fval (it_w it) + tw) items.

Section Gather.
  Variable L : Libm.
  Hint Extern 0 (Num F) => exact (NumF L) : typeclass_instances.
  Context {G : Geo F}.
  Hypothesis HG : two_or_threeF G.
  Variable nodes : list (Node F).
  Variable T : R.
  Hypothesis HT : bpow radix2 (-650) <= T <= bpow radix2 800.
  Definition w_ok (it : Item F) : Prop := ffin (it_w it) /\ 0 <= fval (it_w it) <= 1 /\ (0 <= it_idx it < Z.of_nat (length nodes))%Z.

  Lemma tw_pos : 0 < tw. Proof. apply bpow_gt_0. Qed.
  Lemma T_pos : 0 < T. Proof. pose proof (bpow_gt_0 radix2 (-650)). lra. Qed.
  Lemma one_term : forall it t, w_ok it -> ffin t -> Rabs (fval t) <= T ->
    ffin (SFmul fprec femax t (it_w it)) /\ Rabs (fval (SFmul fprec femax t (it_w it))) <= T * (fval (it_w it) + tw) * (1 + eps).
  Proof.
    intros it t (Fw & Bw & _) Ft Bt. pose proof tw_pos. pose proof T_pos. apply mulB; auto; [rewrite Rabs_pos_eq; lra|]. split.
    - apply Rle_trans with (bpow radix2 (-650) * bpow radix2 (-300)); [rewrite <- bpow_plus; apply bpow_le; lia|]. apply Rmult_le_compat; try apply bpow_ge_0; unfold tw in *; lra.
    - apply Rle_trans with (bpow radix2 800 * bpow radix2 1); [|rewrite <- bpow_plus; apply bpow_le; lia]. assert (tw <= 1) by (unfold tw; apply Rle_trans with (bpow radix2 0); [apply bpow_le; lia|cbn; lra]). change (bpow radix2 1) with 2. apply Rmult_le_compat; lra.
  Qed.
  Lemma next_sum : forall c a S it t, ffin a -> 0 <= S <= 1000 -> (c <= 100)%nat -> Rabs (fval a) <= T * S * (1 + 4 * eps) ^ c -> w_ok it -> ffin t -> Rabs (fval t) <= T ->
    let a' := SFadd fprec femax a (SFmul fprec femax t (it_w it)) in ffin a' /\ Rabs (fval a') <= T * (S + (fval (it_w it) + tw)) * (1 + 4 * eps) ^ Datatypes.S c.
  Proof.
    intros c a S it t Fa HS Hc Ba Hw Ft Bt. cbv zeta. destruct (one_term it t Hw Ft Bt) as (F1 & B1). pose proof tw_pos as W0. pose proof T_pos as T0. pose proof eps_pos as E0. destruct Hw as (_ & Bw & _).
    assert (Ce : INR c * eps <= 1) by (apply Rle_trans with (INR 100 * eps); [apply Rmult_le_compat_r; [lra|apply le_INR; auto]|cbn [INR]; unfold eps; lra]).
    pose proof (pow_bound c Ce) as Pb. pose proof (pow1 c) as P1. set (q := (1 + 4 * eps) ^ c) in *. set (w := fval (it_w it) + tw) in *.
    assert (W1 : 0 <= w <= 2) by (assert (tw <= 1) by (unfold tw; apply Rle_trans with (bpow radix2 0); [apply bpow_le; lia|cbn; lra]); unfold w; lra).
    assert (TS : 0 <= T * S) by (apply Rmult_le_pos; lra). assert (TW : 0 <= T * w) by (apply Rmult_le_pos; lra). assert (e1 : eps <= 1/100) by (unfold eps; lra).
    destruct (addB _ _ _ _ Fa F1 Ba B1) as (F2 & B2).
    - apply Rle_trans with (bpow radix2 800 * bpow radix2 18); [|rewrite <- bpow_plus; apply bpow_le; lia]. change (bpow radix2 18) with 262144. assert (T * S * q <= T * 128000) by (rewrite Rmult_assoc; apply Rmult_le_compat_l; [lra|]; nra). assert (T * w <= T * 2) by (apply Rmult_le_compat_l; lra). nra.
    - split; auto. eapply Rle_trans; [exact B2|]. cbn [pow]. fold q.
      assert (T1 : T * S * q * (1 + eps) <= T * S * q * (1 + 4 * eps)) by (apply Rmult_le_compat_l; [apply Rmult_le_pos; lra|lra]).
      assert (T2 : T * w * ((1 + eps) * (1 + eps)) <= T * w * (1 + 4 * eps)) by (apply Rmult_le_compat_l; [lra|nra]).
      assert (T3 : T * w * (1 + 4 * eps) <= T * w * (1 + 4 * eps) * q) by (assert (0 <= T * w * (1 + 4 * eps)) by (apply Rmult_le_pos; lra); nra).
      replace (T * (S + w) * ((1 + 4 * eps) * q)) with (T * S * q * (1 + 4 * eps) + T * w * (1 + 4 * eps) * q) by ring. lra.
  Qed.
  (** Vectors. *)
  Lemma gather_bound : forall (get : Node F -> TV) items c S (acc : TV), (forall it, In it items -> w_ok it) ->
    (forall nd k, In nd nodes -> (k < dim)%nat -> ffin (vget (get nd) k) /\ Rabs (fval (vget (get nd) k)) <= T) ->
    (c + length items <= 100)%nat -> 0 <= S -> S + wsum items <= 1000 -> (forall k, (k < dim)%nat -> ffin (vget acc k) /\ Rabs (fval (vget acc k)) <= T * S * (1 + 4 * eps) ^ c) ->
    exists r, foldM (fun a it => nd <- rd nodes (it_idx it) ;; Ok (vadd a (vscale (get nd) (it_w it)))) items acc = Ok r /\
      forall k, (k < dim)%nat -> ffin (vget r k) /\ Rabs (fval (vget r k)) <= T * (S + wsum items) * (1 + 4 * eps) ^ (c + length items).
  Proof.
    intros get. induction items as [|it items IH]; intros c S acc Hw Hn Hc HS HS' Ha; cbn [foldM].
    - exists acc. split; auto. unfold wsum. cbn [Rsum length]. intros k Hk. rewrite Rplus_0_r, Nat.add_0_r. auto.
    - pose proof (Hw it (or_introl eq_refl)) as Wi. destruct (rd_some nodes (it_idx it)) as (nd & En); [apply Wi|]. rewrite En. cbn [bind].
      assert (Ind : In nd nodes) by (apply rd_Ok in En; destruct En as (_ & En); now apply nth_error_In in En).
      assert (W0 : 0 <= wsum items) by (apply Rsum_nonneg; intros it' Hit; destruct (Hw it' (or_intror Hit)) as (_ & ? & _); pose proof tw_pos; lra).
      pose proof tw_pos as Tw. assert (Wp : 0 <= fval (it_w it)) by apply Wi. unfold wsum in HS'. cbn [Rsum] in HS'. fold (wsum items) in HS'.
      destruct (IH (Datatypes.S c) (S + (fval (it_w it) + tw)) (vadd acc (vscale (get nd) (it_w it)))) as (r & Er & Kr); auto.
      + intros it' Hit. apply Hw. now right.
      + cbn [length] in Hc. lia.
      + lra.
      + lra.
      + intros k Hk. unfold vadd, vscale. repeat (rewrite vgetF by auto). destruct (Ha k Hk) as (F1 & B1). destruct (Hn nd k Ind Hk) as (F2 & B2).
        apply (next_sum c (vget acc k) S it (vget (get nd) k)); auto; [lra|cbn [length] in Hc; lia].
      + exists r. split; auto. intros k Hk. destruct (Kr k Hk) as (F1 & B1). split; auto. unfold wsum. cbn [Rsum length]. fold (wsum items). replace (c + Datatypes.S (length items))%nat with (Datatypes.S c + length items)%nat by lia. rewrite <- Rplus_assoc. exact B1.
  Qed.
  (** Matrices. *)
  Lemma gatherM_bound : forall (get : Item F -> Node F -> TM) items c S (acc : TM), (forall it, In it items -> w_ok it) ->
    (forall it nd k l, In it items -> In nd nodes -> (k < dim)%nat -> (l < dim)%nat -> ffin (mget (get it nd) k l) /\ Rabs (fval (mget (get it nd) k l)) <= T) ->
    (c + length items <= 100)%nat -> 0 <= S -> S + wsum items <= 1000 -> (forall k l, (k < dim)%nat -> (l < dim)%nat -> ffin (mget acc k l) /\ Rabs (fval (mget acc k l)) <= T * S * (1 + 4 * eps) ^ c) ->
    exists r, foldM (fun a it => nd <- rd nodes (it_idx it) ;; Ok (madd a (mscale (get it nd) (it_w it)))) items acc = Ok r /\
      forall k l, (k < dim)%nat -> (l < dim)%nat -> ffin (mget r k l) /\ Rabs (fval (mget r k l)) <= T * (S + wsum items) * (1 + 4 * eps) ^ (c + length items).
  Proof.
    intros get. induction items as [|it items IH]; intros c S acc Hw Hn Hc HS HS' Ha; cbn [foldM].
    - exists acc. split; auto. unfold wsum. cbn [Rsum length]. intros k l Hk Hl. rewrite Rplus_0_r, Nat.add_0_r. auto.
    - pose proof (Hw it (or_introl eq_refl)) as Wi. destruct (rd_some nodes (it_idx it)) as (nd & En); [apply Wi|]. rewrite En. cbn [bind].
      assert (Ind : In nd nodes) by (apply rd_Ok in En; destruct En as (_ & En); now apply nth_error_In in En).
      assert (W0 : 0 <= wsum items) by (apply Rsum_nonneg; intros it' Hit; destruct (Hw it' (or_intror Hit)) as (_ & ? & _); pose proof tw_pos; lra).
      pose proof tw_pos as Tw. assert (Wp : 0 <= fval (it_w it)) by apply Wi. unfold wsum in HS'. cbn [Rsum] in HS'. fold (wsum items) in HS'.
      destruct (IH (Datatypes.S c) (S + (fval (it_w it) + tw)) (madd acc (mscale (get it nd) (it_w it)))) as (r & Er & Kr); auto.
      + intros it' Hit. apply Hw. now right.
      + intros it' nd' k l Hit. apply Hn. now right.
      + cbn [length] in Hc. lia.
      + lra.
      + lra.
      + intros k l Hk Hl. unfold madd, mscale. repeat (rewrite mgetF by auto). destruct (Ha k l Hk Hl) as (F1 & B1). destruct (Hn it nd k l (or_introl eq_refl) Ind Hk Hl) as (F2 & B2).
        apply (next_sum c (mget acc k l) S it (mget (get it nd) k l)); auto; [lra|cbn [length] in Hc; lia].
      + exists r. split; auto. intros k l Hk Hl. destruct (Kr k l Hk Hl) as (F1 & B1). split; auto. unfold wsum. cbn [Rsum length]. fold (wsum items). replace (c + Datatypes.S (length items))%nat with (Datatypes.S c + length items)%nat by lia. rewrite <- Rplus_assoc. exact B1.
  Qed.
End Gather.
