(** * NewtonProofs: the explicit Cam-Clay solver is Newton's method for associated flow. *)
From Coq Require Import Reals ZArith Lra Lia List Bool.
From Coquelicot Require Import Coquelicot.
From Verif Require Import Num NumR Tools Lin Types Rma Spec SpecPlastic SpecNewton RmaProofs.
Import ListNotations.
Local Open Scope R_scope.

Section Explicit.
  Variables (M beta pc K f Pt Qt : R).
  Definition yv (p q : R) : R := M * M * (p - pc) * (p + beta * pc) + q * q.
  Definition kv (p : R) : R := M * M * (beta * pc + 2 * p - pc).
  Lemma cam_yv : forall p q, cam_clay M beta pc p q = yv p q.
  Proof. intros. unfold cam_clay, yv, Rsqr. ring. Qed.
  Lemma cam_dp : forall p q, Derive (fun a => cam_clay M beta pc a q) p = kv p.
  Proof. intros. apply is_derive_unique. unfold cam_clay, Rsqr. auto_derive; auto. unfold kv. ring. Qed.
  Lemma cam_dq : forall p q, Derive (fun b => cam_clay M beta pc p b) q = 2 * q.
  Proof. intros. apply is_derive_unique. unfold cam_clay, Rsqr. auto_derive; auto. ring. Qed.
  Definition F1 (x : point) : R := let '(p, q, l) := x in Pt - p - K * l * kv p.
  Definition F2 (x : point) : R := let '(p, q, l) := x in Qt - q - f * l * (2 * q).
  Definition F3 (x : point) : R := let '(p, q, l) := x in yv p q.
  Let Fs := flow_equations M beta pc K f Pt Qt.
  Lemma Fs_in : forall F, In F Fs -> (forall x, F x = F1 x) \/ (forall x, F x = F2 x) \/ (forall x, F x = F3 x).
  Proof.
    intros F [<-|[<-|[<-|[]]]]; [left|right; left|right; right]; intros ((p & q) & l); cbn; [now rewrite cam_dp|now rewrite cam_dq|apply cam_yv].
  Qed.
  Lemma Fs_nth : forall x, nth 0 Fs (fun _ => 0) x = F1 x /\ nth 1 Fs (fun _ => 0) x = F2 x /\ nth 2 Fs (fun _ => 0) x = F3 x.
  Proof. intros ((p & q) & l). cbn. rewrite cam_dp, cam_dq. auto using cam_yv. Qed.
  Lemma sat_iff : forall tol x, satisfied Fs tol x <-> Rabs (F1 x) < tol /\ Rabs (F2 x) < tol /\ Rabs (F3 x) < tol.
  Proof.
    intros tol x. destruct (Fs_nth x) as (A & B & C). split.
    - intros H. rewrite <- A, <- B, <- C. repeat split; apply H; cbn; auto.
    - intros (X & Y & Z) F HF. destruct (Fs_in F HF) as [E|[E|E]]; now rewrite E.
  Qed.
  (** Derivatives along a direction. *)
  Lemma d1 : forall p q l p' q' l', Derive (fun t => F1 (towards (p, q, l) (p', q', l') t)) 0 = (-1 - K * l * (2 * M * M)) * (p' - p) + (- K * kv p) * (l' - l).
  Proof. intros. apply is_derive_unique. unfold F1, towards, kv. auto_derive; auto. ring. Qed.
  Lemma d2 : forall p q l p' q' l', Derive (fun t => F2 (towards (p, q, l) (p', q', l') t)) 0 = (-1 - f * l * 2) * (q' - q) + (- f * (2 * q)) * (l' - l).
  Proof. intros. apply is_derive_unique. unfold F2, towards. auto_derive; auto. ring. Qed.
  Lemma d3 : forall p q l p' q' l', Derive (fun t => F3 (towards (p, q, l) (p', q', l') t)) 0 = kv p * (p' - p) + 2 * q * (q' - q).
  Proof. intros. apply is_derive_unique. unfold F3, towards, yv. auto_derive; auto. unfold kv. ring. Qed.
  Lemma step_iff : forall x y, newton_step Fs x y <-> F1 x + Derive (fun t => F1 (towards x y t)) 0 = 0 /\ F2 x + Derive (fun t => F2 (towards x y t)) 0 = 0 /\ F3 x + Derive (fun t => F3 (towards x y t)) 0 = 0.
  Proof.
    intros x y. assert (N : forall i Fi, (forall z, nth i Fs (fun _ => 0) z = Fi z) -> Derive (fun t => nth i Fs (fun _ => 0) (towards x y t)) 0 = Derive (fun t => Fi (towards x y t)) 0) by (intros; apply Derive_ext; auto).
    split.
    - intros H. rewrite <- (N 0%nat F1), <- (N 1%nat F2), <- (N 2%nat F3) by (intros; apply Fs_nth).
      rewrite <- (proj1 (Fs_nth x)), <- (proj1 (proj2 (Fs_nth x))), <- (proj2 (proj2 (Fs_nth x))). repeat split; apply H; cbn; auto.
    - intros (X & Y & Z) F HF. destruct (Fs_in F HF) as [E|[E|E]]; rewrite E, (Derive_ext _ _ 0 (fun t => E (towards x y t))); auto.
  Qed.
  Definition detv (p q l : R) : R := let J11 := -1 - K * l * (2 * M * M) in let J22 := -1 - f * l * 2 in
    J11 * (- (2 * q) * (- f * (2 * q))) + (- K * kv p) * (- kv p * J22).
  Lemma det_eq : forall p q l, jacobian_det Fs (p, q, l) = detv p q l.
  Proof.
    intros p q l.
    assert (N : forall i Fi j, (forall z, nth i Fs (fun _ => 0) z = Fi z) -> partial (nth i Fs (fun _ => 0)) (p, q, l) j = Derive (fun t => Fi (towards (p, q, l) (shift (p, q, l) j) t)) 0) by (intros; apply Derive_ext; auto).
    unfold jacobian_det, Fs, flow_equations. fold Fs.
    change (fun x : point => let '(p, q, l) := x in Pt - p - K * l * Derive (fun a => cam_clay M beta pc a q) p) with (nth 0 Fs (fun _ => 0)).
    change (fun x : point => let '(p, q, l) := x in Qt - q - f * l * Derive (fun b => cam_clay M beta pc p b) q) with (nth 1 Fs (fun _ => 0)).
    change (fun x : point => let '(p, q, l) := x in cam_clay M beta pc p q) with (nth 2 Fs (fun _ => 0)).
    rewrite !(N 0%nat F1), !(N 1%nat F2), !(N 2%nat F3) by (intros; apply Fs_nth). cbn [shift].
    rewrite !d1, !d2, !d3. unfold detv. ring.
  Qed.
  Lemma newton_linear : forall a b c d e g r1 r2 y, let det := a * (- g * d) + b * (- e * c) in det <> 0 ->
    let dp := - ((- g * d * r1 + g * b * r2 - c * b * y) / det) in let dq := - ((e * d * r1 - e * b * r2 - a * d * y) / det) in
    let dl := - ((- e * c * r1 - a * g * r2 + a * c * y) / det) in
    r1 + (a * dp + b * dl) = 0 /\ r2 + (c * dq + d * dl) = 0 /\ y + (e * dp + g * dq) = 0.
  Proof. intros. subst det dp dq dl. repeat split; field; auto. Qed.
  (** One iteration. *)
  Variable mag : R -> R.
  Hypothesis Mag : forall d, 1/1000000 <= mag d -> d <> 0.
  Definition nxt (x : point) : point := let '(p, q, l) := x in
    newton3 mag K f (2 * M * M) 2 (kv p) (2 * q) (F1 x) (F2 x) (F3 x) pc p q l.
  Lemma nxt_step : forall x, (mag (jacobian_det Fs x) < 1/1000000 -> nxt x = floor_q (damped_step Fs pc x)) /\
    (1/1000000 <= mag (jacobian_det Fs x) -> exists y, newton_step Fs x y /\ nxt x = floor_q y).
  Proof using Mag.
    intros ((p & q) & l). rewrite det_eq. unfold nxt, newton3. cbv zeta. numR. rewrite ?nofZ_R. numR.
    change (IZR (-1)) with (-1).
    match goal with |- context [Rltb (mag ?d) _] => replace d with (detv p q l) by (unfold detv; ring) end.
    assert (Fl : forall q', (if Rltb q' (1 / 1000000000000000) then 1 / 1000000000000000 else q') = Rmax q' (1/1000000000000000)).
    { intros q'. unfold Rmax. destruct (Rltb_spec q' (1 / 1000000000000000)), (Rle_dec q' (1/1000000000000000)); lra. }
    split; intros H.
    - destruct (Rltb_spec (mag (detv p q l)) (1/1000000)); [|lra]. unfold e15, e3. numR. rewrite Fl. unfold floor_q, damped_step.
      destruct (Fs_nth (p, q, l)) as (-> & -> & ->). reflexivity.
    - destruct (Rltb_spec (mag (detv p q l)) (1/1000000)); [lra|]. unfold e15. numR. rewrite Fl. specialize (Mag _ H).
      match goal with |- exists y, _ /\ (?a, Rmax ?b _, ?c) = _ => exists (a, b, c) end. split; [|reflexivity].
      apply step_iff. rewrite d1, d2, d3.
      destruct (newton_linear (-1 - K * l * (2 * M * M)) (- K * kv p) (-1 - f * l * 2) (- f * (2 * q)) (kv p) (2 * q) (F1 (p, q, l)) (F2 (p, q, l)) (F3 (p, q, l))) as (A & B & C).
      { intros X. apply Mag. rewrite <- X. unfold detv. ring. }
      match type of A with context [_ / ?D] => replace (detv p q l) with D by (unfold detv; ring) end.
      split; [|split]; [rewrite <- A|rewrite <- B|rewrite <- C]; ring.
  Qed.
  Fixpoint iterates (k : nat) : point := match k with O => (Pt, Qt, 0) | S k => nxt (iterates k) end.
  Lemma iterates_newton : newton_sequence Fs mag pc Pt Qt iterates.
  Proof using Mag. split; [reflexivity|]. intros k. apply nxt_step. Qed.

  Definition pressure_of (x : point) : R := fst (fst x).
  Lemma sat_dec : forall x, {satisfied Fs (1/1000) x} + {~ satisfied Fs (1/1000) x}.
  Proof.
    intros x. destruct (Rlt_dec (Rabs (F1 x)) (1/1000)); [|right; rewrite sat_iff; tauto]. destruct (Rlt_dec (Rabs (F2 x)) (1/1000)); [|right; rewrite sat_iff; tauto].
    destruct (Rlt_dec (Rabs (F3 x)) (1/1000)); [left|right]; rewrite sat_iff; tauto.
  Qed.
  Lemma loop_newton : forall n k, (k + n = 40)%nat -> (0 < n)%nat -> (forall j, (5 <= j < k)%nat -> ~ satisfied Fs (1/1000) (iterates j)) ->
    forall p q l, iterates k = (p, q, l) -> exists k', accepted Fs (1/1000) 39 iterates k' /\
      let r := fst (mcc_expl_loop mag n (Z.of_nat k) M pc beta K f Pt Qt p q l) in
      (satisfied Fs (1/1000) (iterates k') \/ 1/10 < pc -> r = pressure_of (iterates k')) /\
      (~ satisfied Fs (1/1000) (iterates k') -> pc <= 1/10 -> r = 1/1000000000000000).
  Proof using Type.
    induction n as [|n IH]; intros k Hk Hn Hj p q l E; [lia|]. cbn [mcc_expl_loop]. cbv zeta. numR. rewrite ?nofZ_R. numR.
    change (M * M * (p - pc) * (p + beta * pc) + q * q) with (F3 (p, q, l)). change (M * M * (beta * pc + 2 * p - pc)) with (kv p).
    change (Pt - p - K * l * kv p) with (F1 (p, q, l)). change (Qt - q - f * l * (2 * q)) with (F2 (p, q, l)). unfold e3, e15. numR.
    set (test := ((4 <? Z.of_nat k)%Z && Rltb (Rabs (F3 (p, q, l))) (1/1000) && Rltb (Rabs (F1 (p, q, l))) (1/1000) && Rltb (Rabs (F2 (p, q, l))) (1/1000))%bool).
    assert (T : test = true <-> (5 <= k)%nat /\ satisfied Fs (1/1000) (iterates k)).
    { rewrite E, sat_iff. unfold test. rewrite !andb_true_iff, Z.ltb_lt. split.
      - intros (((A & B) & C) & D). apply Rltb_true in B, C, D. repeat split; auto; lia.
      - intros (A & B & C & D). repeat split; try lia; match goal with |- Rltb ?a ?b = true => destruct (Rltb_spec a b); [reflexivity|lra] end. }
    destruct test.
    - destruct (proj1 T eq_refl) as (A & B). exists k. split; [split; [lia|]; split; [exact Hj|]; right; auto|]. cbn [fst]. unfold pressure_of. rewrite E in *. split; [auto|tauto].
    - assert (Nt : ~ ((5 <= k)%nat /\ satisfied Fs (1/1000) (iterates k))) by (intros X; apply T in X; discriminate).
      destruct (Z.eqb_spec (Z.of_nat k) 39) as [L|L].
      + exists k. split; [split; [lia|]; split; [exact Hj|]; left; lia|]. assert (~ satisfied Fs (1/1000) (iterates k)) by (intros X; apply Nt; split; [lia|auto]).
        unfold pressure_of. rewrite E in *. cbv zeta. destruct (Rltb_spec (1/10) pc); cbn [fst]; split; intros; try tauto; lra.
      + assert (Nx : nxt (p, q, l) = iterates (S k)) by (cbn; now rewrite E).
        change (newton3 mag K f (2 * M * M) 2 (kv p) (2 * q) (F1 (p, q, l)) (F2 (p, q, l)) (F3 (p, q, l)) pc p q l) with (nxt (p, q, l)).
        rewrite Nx. destruct (iterates (S k)) as ((p', q'), l') eqn:E'. replace (Z.of_nat k + 1)%Z with (Z.of_nat (S k)) by lia.
        apply (IH (S k) ltac:(lia) ltac:(lia)); auto. intros j Hj'. destruct (Nat.eq_dec j k) as [->|]; [intros X; apply Nt; split; [lia|auto]|apply Hj; lia].
  Qed.
  (** The whole solver. *)
  Lemma explicit_newton : 0 < cam_clay M beta pc Pt Qt -> exists xs k, newton_sequence Fs mag pc Pt Qt xs /\ accepted Fs (1/1000) 39 xs k /\
    let r := rm_p (MCCRMAExplicit mag Pt Qt M pc beta K f) in let clamp := fun p => Rmin (Rmax p (- beta * pc)) pc in
    (satisfied Fs (1/1000) (xs k) \/ 1/10 < pc -> r = clamp (fst (fst (xs k)))) /\
    (~ satisfied Fs (1/1000) (xs k) -> pc <= 1/10 -> r = clamp (1/1000000000000000)).
  Proof using Mag.
    intros Y. destruct (loop_newton 40 0 ltac:(lia) ltac:(lia) ltac:(intros; lia) Pt Qt 0 eq_refl) as (k & A & B). exists iterates, k. split; [apply iterates_newton|]. split; [exact A|].
    unfold MCCRMAExplicit. cbv zeta. numR. rewrite ?nofZ_R. numR. change (M * M * (Pt - pc) * (Pt + beta * pc) + Qt * Qt) with (yv Pt Qt). rewrite cam_yv in Y. destruct (Rltb_spec 0 (yv Pt Qt)); [|lra].
    cbv zeta in B. change (Z.of_nat 0) with 0%Z in B.
    destruct (mcc_expl_loop mag 40 0 M pc beta K f Pt Qt Pt Qt 0) as (p1, q1) eqn:El. cbn [rm_p fst] in *. unfold mcc_clamp. rewrite cmin_R, cmax_R. numR. unfold pressure_of in B.
    destruct B as (B1 & B2). split; intros; [rewrite B1|rewrite B2]; auto.
  Qed.
End Explicit.

(** ** The one-variable solver *)
Section Onevar.
  Variables (M beta K f Pt Qt : R).   (* pressures in units of the preconsolidation pressure *)
  Hypotheses (HM : 0 < M) (HK : 0 < K) (Hf : 0 < f) (Hb : 0 <= beta).
  Let a := M * M * K.
  Definition ov_p (l : R) : R := (Pt - M * M * K * l * (beta - 1) * 1) / (1 + 2 * (M * M) * K * l).
  Definition ov_q (l : R) : R := Qt / (1 + 2 * f * l).
  Definition ov_y (l : R) : R := M * M * (ov_p l - 1) * (ov_p l + beta * 1) + ov_q l * ov_q l.
  Definition ov_dy (l : R) : R :=
    let dp := (-2 * (M * M) * K * Pt - M * M * K * (beta - 1) * 1) / ((1 + 2 * (M * M) * K * l) * (1 + 2 * (M * M) * K * l)) in
    let dq := -2 * f * Qt / ((1 + 2 * f * l) * (1 + 2 * f * l)) in
    M * M * (2 * ov_p l * dp + (beta - 1) * 1 * dp) + 2 * ov_q l * dq.
  Let A := M * M * (Pt - (1 - beta) / 2) * (Pt - (1 - beta) / 2). Let B := Qt * Qt.
  Definition bowl (u w : R) : R := A / (u * u) + B / (w * w) - M * M * ((1 + beta) / 2) * ((1 + beta) / 2).
  Let u (l : R) := 1 + 2 * a * l. Let w (l : R) := 1 + 2 * f * l.
  Lemma a_pos : 0 < a. Proof using HM HK. unfold a. repeat apply Rmult_lt_0_compat; auto. Qed.
  Lemma u_pos : forall l, 0 <= l -> 0 < u l. Proof using HM HK. intros l Hl. unfold u. pose proof a_pos. nra. Qed.
  Lemma w_pos : forall l, 0 <= l -> 0 < w l. Proof using Hf. intros l Hl. unfold w. nra. Qed.
  Lemma ov_y_bowl : forall l, 0 <= l -> ov_y l = bowl (u l) (w l).
  Proof using HM HK Hf. intros l Hl. pose proof (u_pos l Hl). pose proof (w_pos l Hl). unfold ov_y, ov_p, ov_q, bowl, A, B. fold a. unfold u, w, a in *. field. split; [lra|]. nra. Qed.
  Lemma ov_dy_bowl : forall l, 0 <= l -> ov_dy l = - (2 * (2 * a) * A / (u l * u l * u l) + 2 * (2 * f) * B / (w l * w l * w l)).
  Proof using HM HK Hf. intros l Hl. pose proof (u_pos l Hl). pose proof (w_pos l Hl). unfold ov_dy, ov_p, ov_q, A, B. cbv zeta. unfold u, w, a in *. field. split; [lra|]. nra. Qed.
  Lemma tangent : forall x y, 0 < x -> 0 < y -> 1 / (y * y) >= 1 / (x * x) - 2 * (y - x) / (x * x * x).
  Proof.
    intros x y Hx Hy. apply Rle_ge. apply Rminus_le. replace (1 / (x * x) - 2 * (y - x) / (x * x * x) - 1 / (y * y)) with (- ((x - y) * (x - y) * (x + 2 * y) / (x * x * x * (y * y)))) by (field; lra).
    assert (0 <= (x - y) * (x - y) * (x + 2 * y) / (x * x * x * (y * y))); [|lra]. apply Rmult_le_pos; [apply Rmult_le_pos; [apply Rle_0_sqr|lra]|]. left. apply Rinv_0_lt_compat. repeat apply Rmult_lt_0_compat; auto.
  Qed.
  Lemma A_nonneg : 0 <= A. Proof. unfold A. replace (M * M * (Pt - (1 - beta) / 2) * (Pt - (1 - beta) / 2)) with ((M * (Pt - (1 - beta) / 2))²) by (unfold Rsqr; ring). apply Rle_0_sqr. Qed.
  Lemma term_nonneg : forall x y z, 0 <= x -> 0 <= y -> 0 < z -> 0 <= 2 * (2 * x) * y * z. Proof. intros. repeat apply Rmult_le_pos; lra. Qed.
  Lemma term_pos : forall x y z, 0 < x -> 0 < y -> 0 < z -> 0 < 2 * (2 * x) * y * z. Proof. intros. repeat apply Rmult_lt_0_compat; lra. Qed.
  Lemma ov_dy_neg : forall l, 0 <= l -> 0 <= ov_y l -> ov_dy l < 0.
  Proof using HM HK Hf Hb.
    intros l Hl Hy. rewrite ov_y_bowl in Hy by auto. rewrite ov_dy_bowl by auto. pose proof (u_pos l Hl) as Hu. pose proof (w_pos l Hl) as Hw. unfold bowl in Hy. pose proof A_nonneg as HA. assert (HB : 0 <= B) by apply Rle_0_sqr. pose proof a_pos.
    assert (C : 0 < M * M * ((1 + beta) / 2) * ((1 + beta) / 2)) by (repeat apply Rmult_lt_0_compat; lra).
    assert (X : 0 < A \/ 0 < B). { destruct HA as [|HA]; auto. destruct HB as [|HB]; auto. rewrite <- HA, <- HB in Hy. unfold Rdiv in Hy at 1 2. lra. }
    assert (D1 : 0 < / (u l * u l * u l)) by (apply Rinv_0_lt_compat; repeat apply Rmult_lt_0_compat; auto). assert (D2 : 0 < / (w l * w l * w l)) by (apply Rinv_0_lt_compat; repeat apply Rmult_lt_0_compat; auto).
    unfold Rdiv. pose proof (term_nonneg a A _ (Rlt_le _ _ a_pos) HA D1) as T1. pose proof (term_nonneg f B _ (Rlt_le _ _ Hf) HB D2) as T2.
    destruct X as [X|X]; [pose proof (term_pos a A _ a_pos X D1)|pose proof (term_pos f B _ Hf X D2)]; lra.
  Qed.
  Lemma ov_newton : forall l, 0 <= l -> 0 <= ov_y l -> let l' := l - ov_y l / ov_dy l in 0 <= l' /\ l <= l' /\ 0 <= ov_y l'.
  Proof using HM HK Hf Hb.
    intros l Hl Hy l'. pose proof (ov_dy_neg l Hl Hy) as Hd.
    assert (L : l <= l'). { unfold l'. assert (0 <= ov_y l / - ov_dy l) by (apply Rmult_le_pos; [auto|left; apply Rinv_0_lt_compat; lra]). replace (ov_y l / ov_dy l) with (- (ov_y l / - ov_dy l)) by (field; lra). lra. }
    split; [lra|]. split; [exact L|]. assert (Hl' : 0 <= l') by lra.
    assert (Z : ov_y l + ov_dy l * (l' - l) = 0) by (unfold l'; field; lra).
    assert (T : ov_y l + ov_dy l * (l' - l) <= ov_y l'); [|lra].
    rewrite !ov_y_bowl, ov_dy_bowl by auto. unfold bowl. pose proof (u_pos l Hl) as Hu. pose proof (w_pos l Hl) as Hw. pose proof (u_pos l' Hl') as Hu'. pose proof (w_pos l' Hl') as Hw'.
    pose proof (tangent (u l) (u l') Hu Hu') as T1. pose proof (tangent (w l) (w l') Hw Hw') as T2.
    apply Rge_le, (Rmult_le_compat_l A _ _ A_nonneg) in T1. apply Rge_le, (Rmult_le_compat_l B _ _ (Rle_0_sqr Qt)) in T2.
    replace (u l' - u l) with (2 * a * (l' - l)) in T1 by (unfold u; ring). replace (w l' - w l) with (2 * f * (l' - l)) in T2 by (unfold w; ring).
    unfold Rdiv in *. lra.
  Qed.
  Lemma ov_loop : forall n k l, (k + n = 100)%nat -> (0 < n)%nat -> 0 <= l -> 0 <= ov_y l -> exists l', l <= l' /\ 0 <= ov_y l' /\
    let r := mcc_onevar_loop n (Z.of_nat k) (M * M) 1 beta K f Pt Qt l in fst r = ov_p l' /\ (snd r = false -> ov_y l' < 1/1000000).
  Proof using HM HK Hf Hb.
    induction n as [|n IH]; intros k l Hk Hn Hl Hy; [lia|]. cbn [mcc_onevar_loop]. cbv zeta. numR. rewrite ?nofZ_R. numR. fold (ov_p l) (ov_q l). fold (ov_y l).
    destruct (3 <? Z.of_nat k)%Z; cbn [andb].
    - destruct (Rltb_spec (ov_y l) (1/1000000)) as [Y|Y]; [exists l; cbn [fst snd]; split; [lra|]; auto|].
      destruct (Z.eqb_spec (Z.of_nat k) 99) as [E|E]; [exists l; cbn [fst snd]; split; [lra|]; split; auto; split; [auto|discriminate]|].
      destruct (ov_newton l Hl Hy) as (A1 & A2 & A3). destruct (IH (S k) _ ltac:(lia) ltac:(lia) A1 A3) as (l' & B1 & B2 & B3). exists l'. split; [lra|]. split; auto. replace (Z.of_nat k + 1)%Z with (Z.of_nat (S k)) by lia. exact B3.
    - destruct (Z.eqb_spec (Z.of_nat k) 99) as [E|E]; [exists l; cbn [fst snd]; split; [lra|]; split; auto; split; [auto|discriminate]|].
      destruct (ov_newton l Hl Hy) as (A1 & A2 & A3). destruct (IH (S k) _ ltac:(lia) ltac:(lia) A1 A3) as (l' & B1 & B2 & B3). exists l'. split; [lra|]. split; auto. replace (Z.of_nat k + 1)%Z with (Z.of_nat (S k)) by lia. exact B3.
  Qed.
End Onevar.
Lemma explicit_onevar : forall M beta pc K f Pt Qt, 0 < M -> 0 < K -> 0 < f -> 0 <= beta -> 0 < pc -> 0 < cam_clay M beta pc Pt Qt ->
  let r := MCCRMAExplicitOnevar Pt Qt M pc beta f K in
  exists p q l, 0 <= l /\ Pt - p - K * l * (M * M * (2 * p + (beta - 1) * pc)) = 0 /\ Qt - q - f * l * (2 * q) = 0 /\ 0 <= cam_clay M beta pc p q /\
    (rm_exit r = false -> cam_clay M beta pc p q < 1/1000000 * pc²) /\ rm_p r = Rmin (Rmax p (- beta * pc)) pc.
Proof.
  intros M beta pc K f Pt Qt HM HK Hf Hb Hp Y r.
  assert (HK' : 0 < K * (1 / pc)) by (apply Rmult_lt_0_compat; auto; apply Rdiv_lt_0_compat; lra). assert (Hf' : 0 < f * (1 / pc)) by (apply Rmult_lt_0_compat; auto; apply Rdiv_lt_0_compat; lra).
  pose (y := ov_y M beta (K * (1 / pc)) (f * (1 / pc)) (Pt * (1 / pc)) (Qt * (1 / pc))).
  assert (Y0 : 0 <= y 0).
  { unfold y, ov_y, ov_p, ov_q. replace (_ + _) with (cam_clay M beta pc Pt Qt * (1 / pc * (1 / pc))) by (unfold cam_clay, Rsqr; field; lra). apply Rmult_le_pos; [lra|]. apply Rle_0_sqr. }
  destruct (ov_loop M beta (K * (1 / pc)) (f * (1 / pc)) (Pt * (1 / pc)) (Qt * (1 / pc)) HM HK' Hf' Hb 100 0 0 eq_refl ltac:(lia) (Rle_refl 0) Y0) as (l & L & Yl & E & X).
  assert (Er : r = MCCRMAExplicitOnevar Pt Qt M pc beta f K) by reflexivity. clearbody r. unfold MCCRMAExplicitOnevar in Er. cbv zeta in Er. rewrite ?nofZ_R in Er. numR.
  replace (M * M * (Pt - pc) * (Pt + beta * pc) + Qt * Qt) with (cam_clay M beta pc Pt Qt) in Er by (unfold cam_clay, Rsqr; ring). destruct (Rleb_spec (cam_clay M beta pc Pt Qt) 0) as [Z|_]; [lra|].
  change (Z.of_nat 0) with 0%Z in E, X. destruct (mcc_onevar_loop 100 0 (M * M) 1 beta (K * (1 / pc)) (f * (1 / pc)) (Pt * (1 / pc)) (Qt * (1 / pc)) 0) as (p1, ex). cbn [fst snd] in E, X. subst p1.
  set (p := ov_p M beta (K * (1 / pc)) (Pt * (1 / pc)) l) in *. set (q := ov_q (f * (1 / pc)) (Qt * (1 / pc)) l).
  assert (D1 : 0 < pc + 2 * (M * M) * K * l) by (assert (0 <= M * M * K * l) by (repeat apply Rmult_le_pos; lra); lra). assert (D2 : 0 < pc + 2 * f * l) by (assert (0 <= f * l) by (apply Rmult_le_pos; lra); lra).
  assert (Cy : cam_clay M beta pc (p * pc) (q * pc) = y l * pc²).
  { unfold cam_clay, y, ov_y. fold p q. unfold Rsqr. ring. }
  assert (Pc2 : 0 < pc²) by (apply Rlt_0_sqr; lra).
  exists (p * pc), (q * pc), (l / pc). split; [apply Rmult_le_pos; [lra|left; apply Rinv_0_lt_compat; auto]|].
  split. { unfold p, ov_p. field. split; [lra|]. nra. }
  split. { unfold q, ov_q. field. split; [lra|]. nra. }
  rewrite Cy. split; [apply Rmult_le_pos; [exact Yl|lra]|]. rewrite Er. cbn [rm_exit rm_p]. split; [intros ->; apply Rmult_lt_compat_r; auto|].
  unfold mcc_clamp. rewrite cmin_R, cmax_R. numR.
  assert (E1 : forall x, x * pc = pc * x) by (intros; ring). rewrite (E1 (Rmin _ _)). replace (- beta * pc) with (pc * (- beta * 1)) by ring. rewrite (E1 p), RmaxRmult by lra. set (m := Rmax p (- beta * 1)).
  unfold Rmin. destruct (Rle_dec m 1), (Rle_dec (pc * m) pc); nra.
Qed.
