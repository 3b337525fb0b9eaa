(** * CoupledProofs: the three-variable Cam-Clay solver with implicit exponential hardening. *)
From Coq Require Import Reals ZArith Lra Lia List Bool.
From Coquelicot Require Import Coquelicot.
From Verif Require Import Num NumR Tools Lin Types Rma Spec SpecPlastic SpecNewton RmaProofs NewtonProofs.
Import ListNotations.
Local Open Scope R_scope.

Section Coupled.
  Variables (M beta pc0 xi K f ev Pt Qt : R).
  Hypothesis HK : K <> 0.
  Definition Hd (p : R) : R := pc0 * exp (- xi * (ev + (p - Pt) / K)).
  Definition Hd1 (p : R) : R := - xi / K * Hd p.
  Definition Hd2 (p : R) : R := xi * xi / (K * K) * Hd p.
  Lemma Hd_der : forall p, is_derive Hd p (Hd1 p).
  Proof using HK. intros p. unfold Hd1, Hd. auto_derive; auto. unfold Rdiv, Rminus. ring. Qed.
  Lemma Hd1_der : forall p, is_derive Hd1 p (Hd2 p).
  Proof using HK. intros p. unfold Hd2, Hd1, Hd. auto_derive; auto. unfold Rdiv, Rminus. rewrite Rinv_mult. ring. Qed.
  Definition cy (p q : R) : R := M * M * (p - Hd p) * (p + beta * Hd p) + q * q.
  (** The slope the solver uses, and its derivative. *)
  Definition sl (p : R) : R := M * M * (2 * p + (beta - 1) * (Hd1 p * p + Hd p) + 2 * beta * Hd p * Hd1 p).
  Definition sl1 (p : R) : R := M * M * (2 + (beta - 1) * (p * Hd2 p + 2 * Hd1 p) + 2 * beta * (Hd1 p * Hd1 p + Hd p * Hd2 p)).
  Lemma cam_cy : forall p q, cam_clay M beta (Hd p) p q = cy p q.
  Proof. intros. unfold cam_clay, cy, Rsqr. ring. Qed.
  Lemma Hd_ex : forall p, ex_derive Hd p.
  Proof using HK. intros p. eexists. apply Hd_der. Qed.
  Lemma Hd1_ex : forall p, ex_derive Hd1 p.
  Proof using HK. intros p. eexists. apply Hd1_der. Qed.
  (** The derivative of the yield function differs from the slope by the sign of its last term. *)
  Lemma cy_der : forall p q, is_derive (fun a => cy a q) p (sl p - 4 * (M * M) * beta * Hd p * Hd1 p).
  Proof using HK.
    intros p q. pose proof (Hd_ex p) as X. pose proof (is_derive_unique _ _ _ (Hd_der p)) as D. unfold cy, sl. set (h1 := Hd1 p) in *. clearbody h1. revert X D. generalize Hd. intros H X D.
    auto_derive; [repeat split; exact X|]. change (Derive (fun x => H x) p) with (Derive H p). rewrite D. ring.
  Qed.
  Lemma sl_der : forall p, is_derive sl p (sl1 p).
  Proof using HK.
    intros p. pose proof (Hd_ex p) as X. pose proof (Hd1_ex p) as X1. pose proof (is_derive_unique _ _ _ (Hd_der p)) as D. pose proof (is_derive_unique _ _ _ (Hd1_der p)) as D1.
    unfold sl, sl1. revert X X1 D D1. generalize (Hd2 p) as h2. intros h2. generalize Hd Hd1. intros H H1 X X1 D D1.
    auto_derive; [repeat split; auto|]. change (Derive (fun x => H x) p) with (Derive H p). change (Derive (fun x => H1 x) p) with (Derive H1 p). rewrite D, D1. ring.
  Qed.

  Hypothesis Hbx : beta * xi = 0.
  Lemma cy_dp : forall p q, Derive (fun a => cam_clay M beta (Hd a) a q) p = sl p.
  Proof using HK Hbx.
    intros p q. apply is_derive_unique. apply (is_derive_ext (fun a => cy a q)); [intros t; symmetry; apply cam_cy|].
    replace (sl p) with (sl p - 4 * (M * M) * beta * Hd p * Hd1 p); [apply cy_der|]. unfold Hd1. replace (4 * (M * M) * beta * Hd p * (- xi / K * Hd p)) with (- (4 * (M * M) * (beta * xi) * Hd p * Hd p / K)) by (field; auto). rewrite Hbx. field. auto.
  Qed.
  Lemma cy_dq : forall p q, Derive (fun b => cam_clay M beta (Hd p) p b) q = 2 * q.
  Proof. intros. apply is_derive_unique. unfold cam_clay, Rsqr. auto_derive; auto. ring. Qed.
  Definition G1 (x : point) : R := let '(p, q, l) := x in Pt - p - K * l * sl p.
  Definition G2 (x : point) : R := let '(p, q, l) := x in Qt - q - f * l * (2 * q).
  Definition G3 (x : point) : R := let '(p, q, l) := x in cy p q.
  Let Fs := coupled_equations Hd M beta K f Pt Qt.
  Lemma Gs_nth : forall x, nth 0 Fs (fun _ => 0) x = G1 x /\ nth 1 Fs (fun _ => 0) x = G2 x /\ nth 2 Fs (fun _ => 0) x = G3 x.
  Proof using HK Hbx. intros ((p & q) & l). cbn. rewrite cy_dp, cy_dq. auto using cam_cy. Qed.
  Lemma Gs_in : forall F, In F Fs -> (forall x, F x = G1 x) \/ (forall x, F x = G2 x) \/ (forall x, F x = G3 x).
  Proof using HK Hbx.
    intros F [<-|[<-|[<-|[]]]]; [left|right; left|right; right]; intros ((p & q) & l); cbn; [now rewrite cy_dp|now rewrite cy_dq|apply cam_cy].
  Qed.
  Lemma gsat_iff : forall tol x, satisfied Fs tol x <-> Rabs (G1 x) < tol /\ Rabs (G2 x) < tol /\ Rabs (G3 x) < tol.
  Proof using HK Hbx.
    intros tol x. destruct (Gs_nth x) as (A & B & C). split.
    - intros H. rewrite <- A, <- B, <- C. repeat split; apply H; cbn; auto.
    - intros (X & Y & Z) F HF. destruct (Gs_in F HF) as [E|[E|E]]; now rewrite E.
  Qed.
  Lemma g1 : forall p q l p' q' l', Derive (fun t => G1 (towards (p, q, l) (p', q', l') t)) 0 = (-1 - K * l * sl1 p) * (p' - p) + (- K * sl p) * (l' - l).
  Proof using HK.
    intros. apply is_derive_unique. unfold G1, towards. pose proof (sl_der p) as D. assert (X : ex_derive sl p) by (eexists; exact D). apply is_derive_unique in D. revert D X. generalize (sl1 p) sl. intros s1 s D X.
    auto_derive; replace (p + 0 * (p' - p)) with p by ring; [repeat split; auto|]. change (Derive (fun x => s x) p) with (Derive s p). rewrite D. ring.
  Qed.
  Lemma g2 : forall p q l p' q' l', Derive (fun t => G2 (towards (p, q, l) (p', q', l') t)) 0 = (-1 - f * l * 2) * (q' - q) + (- f * (2 * q)) * (l' - l).
  Proof. intros. apply is_derive_unique. unfold G2, towards. auto_derive; auto. ring. Qed.
  Lemma g3 : forall p q l p' q' l', Derive (fun t => G3 (towards (p, q, l) (p', q', l') t)) 0 = sl p * (p' - p) + 2 * q * (q' - q).
  Proof using HK Hbx.
    intros. apply is_derive_unique. unfold G3, towards.
    apply (is_derive_ext (fun t => cy (p + t * (p' - p)) 0 + (q + t * (q' - q)) * (q + t * (q' - q)))); [intros t; unfold cy; change (M * M * (p + t * (p' - p) - Hd (p + t * (p' - p))) * (p + t * (p' - p) + beta * Hd (p + t * (p' - p))) + 0 * 0 + (q + t * (q' - q)) * (q + t * (q' - q)) = M * M * (p + t * (p' - p) - Hd (p + t * (p' - p))) * (p + t * (p' - p) + beta * Hd (p + t * (p' - p))) + (q + t * (q' - q)) * (q + t * (q' - q))); ring|].
    pose proof (cy_dp p 0) as D. rewrite (Derive_ext _ (fun a => cy a 0)) in D by (intros; apply cam_cy).
    assert (X : ex_derive (fun a => cy a 0) p) by (eexists; apply cy_der). set (c := fun a : R => cy a 0). change (ex_derive c p) in X. change (Derive c p = sl p) in D.
    change (is_derive (fun t : R => c (p + t * (p' - p)) + (q + t * (q' - q)) * (q + t * (q' - q))) 0 (sl p * (p' - p) + 2 * q * (q' - q))). clearbody c.
    auto_derive; replace (p + 0 * (p' - p)) with p by ring; [repeat split; auto|]. change (Derive (fun x => c x) p) with (Derive c p). rewrite D. ring.
  Qed.
  Lemma gstep_iff : forall x y, newton_step Fs x y <-> G1 x + Derive (fun t => G1 (towards x y t)) 0 = 0 /\ G2 x + Derive (fun t => G2 (towards x y t)) 0 = 0 /\ G3 x + Derive (fun t => G3 (towards x y t)) 0 = 0.
  Proof using HK Hbx.
    intros x y. assert (N : forall i Fi, (forall z, nth i Fs (fun _ => 0) z = Fi z) -> Derive (fun t => nth i Fs (fun _ => 0) (towards x y t)) 0 = Derive (fun t => Fi (towards x y t)) 0) by (intros; apply Derive_ext; auto).
    split.
    - intros H. rewrite <- (N 0%nat G1), <- (N 1%nat G2), <- (N 2%nat G3) by (intros; apply Gs_nth).
      rewrite <- (proj1 (Gs_nth x)), <- (proj1 (proj2 (Gs_nth x))), <- (proj2 (proj2 (Gs_nth x))). repeat split; apply H; cbn; auto.
    - intros (X & Y & Z) F HF. destruct (Gs_in F HF) as [E|[E|E]]; rewrite E, (Derive_ext _ _ 0 (fun t => E (towards x y t))); auto.
  Qed.
  Definition gdet (p q l : R) : R := let J11 := -1 - K * l * sl1 p in let J22 := -1 - f * l * 2 in
    J11 * (- (2 * q) * (- f * (2 * q))) + (- K * sl p) * (- sl p * J22).
  Lemma gdet_eq : forall p q l, jacobian_det Fs (p, q, l) = gdet p q l.
  Proof using HK Hbx.
    intros p q l.
    assert (N : forall i Fi j, (forall z, nth i Fs (fun _ => 0) z = Fi z) -> partial (nth i Fs (fun _ => 0)) (p, q, l) j = Derive (fun t => Fi (towards (p, q, l) (shift (p, q, l) j) t)) 0) by (intros; apply Derive_ext; auto).
    unfold jacobian_det, Fs, coupled_equations. fold Fs.
    change (fun x : point => let '(p, q, l) := x in Pt - p - K * l * Derive (fun a => cam_clay M beta (Hd a) a q) p) with (nth 0 Fs (fun _ => 0)).
    change (fun x : point => let '(p, q, l) := x in Qt - q - f * l * Derive (fun b => cam_clay M beta (Hd p) p b) q) with (nth 1 Fs (fun _ => 0)).
    change (fun x : point => let '(p, q, l) := x in cam_clay M beta (Hd p) p q) with (nth 2 Fs (fun _ => 0)).
    rewrite !(N 0%nat G1), !(N 1%nat G2), !(N 2%nat G3) by (intros; apply Gs_nth). cbn [shift].
    rewrite !g1, !g2, !g3. unfold gdet. ring.
  Qed.
  Variable mag : R -> R.
  Hypothesis Mag : forall d, 1/1000000 <= mag d -> d <> 0.
  Definition gnxt (x : point) : point := let '(p, q, l) := x in
    newton3 mag K f (sl1 p) 2 (sl p) (2 * q) (G1 x) (G2 x) (G3 x) pc0 p q l.
  Lemma gnxt_step : forall x, (mag (jacobian_det Fs x) < 1/1000000 -> gnxt x = floor_q (damped_step Fs pc0 x)) /\
    (1/1000000 <= mag (jacobian_det Fs x) -> exists y, newton_step Fs x y /\ gnxt x = floor_q y).
  Proof using HK Hbx Mag.
    intros ((p & q) & l). rewrite gdet_eq. unfold gnxt, newton3. cbv zeta. numR. rewrite ?nofZ_R. numR.
    change (IZR (-1)) with (-1).
    match goal with |- context [Rltb (mag ?d) _] => replace d with (gdet p q l) by (unfold gdet; ring) end.
    assert (Fl : forall q', (if Rltb q' (1 / 1000000000000000) then 1 / 1000000000000000 else q') = Rmax q' (1/1000000000000000)).
    { intros q'. unfold Rmax. destruct (Rltb_spec q' (1 / 1000000000000000)), (Rle_dec q' (1/1000000000000000)); lra. }
    split; intros H.
    - destruct (Rltb_spec (mag (gdet p q l)) (1/1000000)); [|lra]. unfold e15, e3. numR. rewrite Fl. unfold floor_q, damped_step.
      destruct (Gs_nth (p, q, l)) as (-> & -> & ->). reflexivity.
    - destruct (Rltb_spec (mag (gdet p q l)) (1/1000000)); [lra|]. unfold e15. numR. rewrite Fl. specialize (Mag _ H).
      match goal with |- exists y, _ /\ (?a, Rmax ?b _, ?c) = _ => exists (a, b, c) end. split; [|reflexivity].
      apply gstep_iff. rewrite g1, g2, g3.
      destruct (newton_linear (-1 - K * l * sl1 p) (- K * sl p) (-1 - f * l * 2) (- f * (2 * q)) (sl p) (2 * q) (G1 (p, q, l)) (G2 (p, q, l)) (G3 (p, q, l))) as (A & B & C).
      { intros X. apply Mag. rewrite <- X. unfold gdet. ring. }
      match type of A with context [_ / ?D] => replace (gdet p q l) with D by (unfold gdet; ring) end.
      split; [|split]; [rewrite <- A|rewrite <- B|rewrite <- C]; ring.
  Qed.
  Fixpoint giter (k : nat) : point := match k with O => (Pt, Qt, 0) | S k => gnxt (giter k) end.
  Lemma giter_newton : newton_sequence Fs mag pc0 Pt Qt giter.
  Proof using HK Hbx Mag. split; [reflexivity|]. intros k. apply gnxt_step. Qed.
  (** Outcome: pressure and preconsolidation pressure used to clip it. *)
  Definition gout (k : nat) (r pc : R) : Prop :=
    let p := fun j => fst (fst (giter j)) in
    ((k < 40)%nat -> r = p k /\ pc = Hd (p k)) /\
    (k = 40%nat -> pc = Hd (p 39%nat) /\ (101/1000 < pc -> r = p 40%nat) /\ (pc <= 101/1000 -> r = 1/1000000000000000)).
  Lemma gloop : forall n k, (k + n = 40)%nat -> (0 < n)%nat -> (forall j, (5 <= j < k)%nat -> ~ satisfied Fs (1/1000) (giter j)) ->
    forall p q l c, giter k = (p, q, l) -> exists k', accepted Fs (1/1000) 40 giter k' /\
      let r := mcc_impl_loop mag n (Z.of_nat k) M pc0 beta K xi f ev Pt Qt p q l c in gout k' (fst (fst r)) (snd r).
  Proof using HK Hbx.
    induction n as [|n IH]; intros k Hk Hn Hj p q l c E; [lia|]. cbn [mcc_impl_loop]. cbv zeta. numR. rewrite ?nofZ_R. numR.
    change (nexp (- xi * (ev + (p - Pt) / K))) with (exp (- xi * (ev + (p - Pt) / K))). change (pc0 * exp (- xi * (ev + (p - Pt) / K))) with (Hd p).
    change (- xi / K * Hd p) with (Hd1 p). change (xi * xi / (K * K) * Hd p) with (Hd2 p).
    change (M * M * (p - Hd p) * (p + beta * Hd p) + q * q) with (G3 (p, q, l)).
    change (M * M * (2 * p + (beta - 1) * (Hd1 p * p + Hd p) + 2 * beta * Hd p * Hd1 p)) with (sl p).
    change (M * M * (2 + (beta - 1) * (p * Hd2 p + 2 * Hd1 p) + 2 * beta * (Hd1 p * Hd1 p + Hd p * Hd2 p))) with (sl1 p).
    change (Pt - p - K * l * sl p) with (G1 (p, q, l)). change (Qt - q - f * l * (2 * q)) with (G2 (p, q, l)). unfold e3, e15. numR.
    set (test := ((4 <? Z.of_nat k)%Z && Rltb (Rabs (G3 (p, q, l))) (1/1000) && Rltb (Rabs (G1 (p, q, l))) (1/1000) && Rltb (Rabs (G2 (p, q, l))) (1/1000))%bool).
    assert (T : test = true <-> (5 <= k)%nat /\ satisfied Fs (1/1000) (giter k)).
    { rewrite E, gsat_iff. unfold test. rewrite !andb_true_iff, Z.ltb_lt. split.
      - intros (((A & B) & C) & D). apply Rltb_true in B, C, D. repeat split; auto; lia.
      - intros (A & B & C & D). repeat split; try lia; match goal with |- Rltb ?a ?b = true => destruct (Rltb_spec a b); [reflexivity|lra] end. }
    destruct test.
    - destruct (proj1 T eq_refl) as (A & B). exists k. split; [split; [lia|]; split; [exact Hj|]; right; auto|]. unfold gout. rewrite E in *. cbn [fst snd]. split; [auto|lia].
    - assert (Nt : ~ ((5 <= k)%nat /\ satisfied Fs (1/1000) (giter k))) by (intros X; apply T in X; discriminate).
      assert (Nx : gnxt (p, q, l) = giter (S k)) by (cbn; now rewrite E).
      assert (Hj' : forall j, (5 <= j < S k)%nat -> ~ satisfied Fs (1/1000) (giter j)) by (intros j Hj'; destruct (Nat.eq_dec j k) as [->|]; [intros X; apply Nt; split; [lia|auto]|apply Hj; lia]).
      change (newton3 mag K f (sl1 p) 2 (sl p) (2 * q) (G1 (p, q, l)) (G2 (p, q, l)) (G3 (p, q, l)) pc0 p q l) with (gnxt (p, q, l)). rewrite Nx.
      destruct (Z.eqb_spec (Z.of_nat k) 39) as [L|L]; cbn [andb].
      + assert (n = 0%nat) by lia. assert (k = 39%nat) by lia. subst n k. exists 40%nat. split; [split; [lia|]; split; [exact Hj'|now left]|]. unfold gout.
        rewrite E. cbn [fst snd]. destruct (Rltb_spec (101/1000) (Hd p)) as [B|B]; cbn [negb].
        * destruct (giter 40) as ((p', q'), l') eqn:E'. cbn [mcc_impl_loop fst snd]. split; [lia|]. intros _. repeat split; auto. intros; lra.
        * cbn [fst snd]. split; [lia|]. intros _. repeat split; auto. intros; lra.
      + destruct (giter (S k)) as ((p', q'), l') eqn:E'. replace (Z.of_nat k + 1)%Z with (Z.of_nat (S k)) by lia.
        apply (IH (S k) ltac:(lia) ltac:(lia)); auto.
  Qed.
  Lemma coupled_newton : 0 < cam_clay M beta (Rmax (1/100) (pc0 * exp (- xi * ev))) Pt Qt -> exists xs k pc r0, newton_sequence Fs mag pc0 Pt Qt xs /\ accepted Fs (1/1000) 40 xs k /\
    let p := fun j => fst (fst (xs j)) in
    ((k < 40)%nat -> r0 = p k /\ pc = Hd (p k)) /\
    (k = 40%nat -> pc = Hd (p 39%nat) /\ (101/1000 < pc -> r0 = p 40%nat) /\ (pc <= 101/1000 -> r0 = 1/1000000000000000)) /\
    let out := MCCRMAImplicitExponential mag Pt Qt M pc0 beta K xi f ev in rm_p out = Rmin (Rmax r0 (- beta * pc)) pc /\ rm_q out = M * sqrt ((pc - rm_p out) * (beta * pc + rm_p out)) /\ rm_plastic out = true.
  Proof using HK Hbx Mag.
    intros Y. destruct (gloop 40 0 ltac:(lia) ltac:(lia) ltac:(intros; lia) Pt Qt 0 (Rmax (1/100) (pc0 * exp (- xi * ev))) eq_refl) as (k & A & B1 & B2).
    change (Z.of_nat 0) with 0%Z in B1, B2. set (L := mcc_impl_loop mag 40 0 M pc0 beta K xi f ev Pt Qt Pt Qt 0 _) in *. exists giter, k, (snd L), (fst (fst L)). split; [apply giter_newton|]. split; [exact A|].
    split; [exact B1|]. split; [exact B2|]. unfold MCCRMAImplicitExponential. cbv zeta. rewrite ?cmax_R. numR. rewrite ?nofZ_R. numR. change (nexp (- xi * ev)) with (exp (- xi * ev)).
    set (c := Rmax (1/100) (pc0 * exp (- xi * ev))) in *. replace (M * M * (Pt - c) * (Pt + beta * c) + Qt * Qt) with (cam_clay M beta c Pt Qt) by (unfold cam_clay, Rsqr; ring).
    destruct (Rltb_spec 0 (cam_clay M beta c Pt Qt)); [|lra]. fold L. destruct L as ((p1, q1), c1). cbn [rm_p rm_q rm_plastic fst snd]. unfold mcc_q, mcc_clamp. rewrite cmin_R, cmax_R. numR. auto.
  Qed.
End Coupled.
