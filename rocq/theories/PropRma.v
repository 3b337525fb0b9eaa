(** * PropRma: C39 and C40, the Cam-Clay return mapping algorithms. *)
From Coq Require Import Reals ZArith Lra Lia List Bool.
From Verif Require Import Num NumR Tools Lin Types Transfer Rma Plastic Spec SpecPlastic LinProofs PlasticProofs RmaProofs PlasticModels PlasticGlue PropPlastic.
Import ListNotations.
Local Open Scope R_scope.

Section Search.
  Variables (pc : R -> R) (K Pt beta et e0 step : R) (right : Z).
  Let und := undecided pc K Pt beta et right.
  Let cand := candidate e0 step.

  Lemma search_scan : forall fuel t f, (t < 32)%nat -> (f < 2)%nat -> (64 - (32 * f + t) <= fuel)%nat ->
    (forall j, (j < 32 * f + t)%nat -> und (cand j)) ->
    let r := search fuel pc e0 et K Pt beta right (Z.of_nat t) (Z.of_nat f) (1 / 2 ^ t) (if Nat.eqb f 0 then step else - step) in
    (r = SInf /\ forall i, (i < 64)%nat -> und (cand i)) \/
    exists i, (i < 64)%nat /\ (forall j, (j < i)%nat -> und (cand j)) /\
      ((r = SOk (cand i) right /\ (near_centre pc K Pt beta et (cand i) \/ ~ wrong_side pc K Pt beta et right (cand i) /\ admissible pc K Pt beta et (cand i))) \/
       (r = SOk e0 (-1) /\ ~ near_centre pc K Pt beta et (cand i) /\ wrong_side pc K Pt beta et right (cand i))).
  Proof.
    induction fuel as [|fuel IH]; intros t f Ht Hf Hfu Hj r; [lia|]. subst r. cbn [search]. cbv zeta.
    assert (E : nsub e0 (nmul (1 / 2 ^ t) (if Nat.eqb f 0 then step else - step)) = cand (32 * f + t)).
    { unfold cand, candidate. numR. destruct f as [|[|f]]; [| |lia]; cbn [Nat.eqb].
      - destruct (Nat.ltb_spec (32 * 0 + t) 32); [|lia]. replace (32 * 0 + t)%nat with t by lia. field. apply pow_nonzero; lra.
      - destruct (Nat.ltb_spec (32 * 1 + t) 32); [lia|]. replace (32 * 1 + t - 32)%nat with t by lia. field. apply pow_nonzero; lra. }
    cbn [search]. rewrite !E. assert (Hi : (32 * f + t < 64)%nat) by lia. assert (Nx : forall P : nat -> Prop, (forall j, (j < 32 * f + t)%nat -> P j) -> P (32 * f + t)%nat -> forall j, (j < S (32 * f + t))%nat -> P j).
    { intros P' A B j Hj'. destruct (Nat.eq_dec j (32 * f + t)) as [->|]; auto. apply A. lia. }
    set (e := cand (32 * f + t)) in *. numR.
    change (K * (e - et) + Pt) with (pressure_at K Pt et e). replace ((pc e - beta * pc e) * (1 / 2)) with (centre_at pc beta e) by (unfold centre_at; lra).
    set (pp := pressure_at K Pt et e) in *. set (mid := centre_at pc beta e) in *. rewrite ?nofZ_R. set (v := 2 * pp + (beta - 1) * pc e) in *.
    destruct (Rleb_spec (Rabs (pp - mid)) (1/100000)) as [A|A].
    { right. exists (32 * f + t)%nat. split; auto. }
    assert (Nn : ~ near_centre pc K Pt beta et e) by (unfold near_centre; fold pp mid; lra).
    match goal with |- context [if ?c then SOk e0 (-1) else _] => destruct c eqn:Side end.
    { right. exists (32 * f + t)%nat. split; auto. split; auto. right. split; auto. split; auto. unfold wrong_side. fold e. fold pp mid.
      apply orb_true_iff in Side. destruct Side as [S|S]; apply andb_true_iff in S; destruct S as (S1 & S2); apply Z.eqb_eq in S1; apply orb_true_iff in S2; [left|right]; split; auto; destruct S2 as [S2|S2]; apply Rltb_true in S2; lra. }
    assert (Ws : ~ wrong_side pc K Pt beta et right e).
    { unfold wrong_side. fold pp mid. apply orb_false_iff in Side. destruct Side as (S1 & S2). intros [(-> & H)|(-> & H)]; cbn [Z.eqb] in *.
      - change ((Rltb pp mid || Rltb Pt mid)%bool = false) in S1. apply orb_false_iff in S1. destruct S1 as (X & Y). apply Rltb_false in X, Y. lra.
      - change ((Rltb mid pp || Rltb mid Pt)%bool = false) in S2. apply orb_false_iff in S2. destruct S2 as (X & Y). apply Rltb_false in X, Y. lra. }
    assert (Ad : ((sgn (et - e)%R =? sgn v)%Z || (sgn (et - e)%R =? 0)%Z)%bool = true <-> admissible pc K Pt beta et e).
    { unfold admissible. fold pp v. rewrite !sgn_R.
      destruct (Rltb_spec 0 (et - e)), (Rltb_spec (et - e) 0), (Rltb_spec 0 v), (Rltb_spec v 0); cbn; split; intros X; try discriminate X; try lra; try reflexivity; try (right; nra); try (left; lra); exfalso; destruct X as [X|X]; try lra; nra. }
    destruct ((sgn (et - e)%R =? sgn v)%Z || (sgn (et - e)%R =? 0)%Z)%bool eqn:Acc.
    { right. exists (32 * f + t)%nat. split; auto. split; auto. left. split; auto. right. split; auto. now apply Ad. }
    assert (U : und e). { split; [|split]; auto. intros X. apply Ad in X. discriminate. }
    destruct (Z.eqb_spec (Z.of_nat t + 1) 32) as [T|T]; cbn [negb].
    - destruct f as [|[|f]]; [| |lia].
      + change ((Z.of_nat 0 + 1 >? 1)%Z) with false. cbv iota. specialize (IH 0%nat 1%nat ltac:(lia) ltac:(lia) ltac:(lia)).
        cbn [Nat.eqb] in *.
        match goal with |- context [search fuel pc e0 et K Pt beta right ?a ?b ?c ?d] => replace (search fuel pc e0 et K Pt beta right a b c d) with (search fuel pc e0 et K Pt beta right (Z.of_nat 0) (Z.of_nat 1) (1 / 2 ^ 0) (- step)) by (f_equal; cbn; lra) end.
        apply IH. intros j Hj'. apply (Nx (fun j => und (cand j))); auto; lia.
      + change ((Z.of_nat 1 + 1 >? 1)%Z) with true. cbv iota. left. split; auto. intros i Hi'. apply (Nx (fun j => und (cand j))); auto; lia.
    - replace (Z.of_nat t + 1)%Z with (Z.of_nat (S t)) by lia. replace (1 / 2 ^ t * (1 / 2)) with (1 / 2 ^ S t) by (cbn; field; apply pow_nonzero; lra).
      apply (IH (S t) f); try lia. intros j Hj'. apply (Nx (fun j => und (cand j))); auto; lia.
  Qed.
End Search.

(** ** C40 *)
(** The line search tries at most 64 strains in a fixed order and stops at the first one it can
    decide: it accepts it (side flag kept) only if the ellipse centre or an admissible plastic
    multiplier is reached, or rejects the step (strain kept, flag -1) because a side was left; if
    none of the 64 is decidable it reports infinity. *)
Theorem C40_limited_search : forall pc e0 et step K Pt beta right,
  let r := limited_search pc e0 et step K Pt beta right in
  let cand := candidate e0 step in let und := undecided pc K Pt beta et right in
  (r = SInf /\ forall i, (i < 64)%nat -> und (cand i)) \/
  exists i, (i < 64)%nat /\ (forall j, (j < i)%nat -> und (cand j)) /\
    ((r = SOk (cand i) right /\ (near_centre pc K Pt beta et (cand i) \/ ~ wrong_side pc K Pt beta et right (cand i) /\ admissible pc K Pt beta et (cand i))) \/
     (r = SOk e0 (-1) /\ ~ near_centre pc K Pt beta et (cand i) /\ wrong_side pc K Pt beta et right (cand i))).
Proof.
  intros pc e0 et step K Pt beta right. unfold limited_search. change (nofZ 1 : R) with (1 / 1). replace (1 / 1) with (1 / 2 ^ 0) by (cbn; field).
  apply (search_scan pc K Pt beta et e0 step right 65 0 0); lia.
Qed.
Print Assumptions C40_limited_search.

(** ** C39 *)
(** The two explicit algorithms: preconsolidation pressure [pc] given. *)
Theorem C39_explicit : forall uabs P Q M pc beta K f_mu mu r, 0 < pc -> 0 <= beta -> 0 <= M ->
  r = MCCRMAExplicit uabs P Q M pc beta K f_mu \/ r = MCCRMAExplicitOnevar P Q M pc beta mu K ->
  (cam_clay M beta pc P Q <= 0 -> rm_plastic r = false /\ rm_p r = P /\ rm_q r = Q) /\
  (0 < cam_clay M beta pc P Q -> rm_plastic r = true /\ on_ellipse M beta pc (rm_p r) (rm_q r)).
Proof.
  intros uabs P Q M pc beta K f_mu mu r Hp Hb HM [-> | ->].
  - destruct (explicit_spec uabs P Q M pc beta K f_mu ltac:(lra) Hb HM) as (_ & A & B). split; auto.
  - destruct (explicit_onevar_spec P Q M pc beta mu K Hp Hb HM) as (A & B). split; auto. intros H. destruct (A H) as (X & _ & Y). auto.
Qed.
Print Assumptions C39_explicit.
(** The three-variable implicit algorithm: the ellipse is that of the last iterate's pressure. *)
Theorem C39_implicit_exponential : forall uabs P Q M pc0 beta K xi f_mu ev, 0 < pc0 -> 0 <= beta -> 0 <= M ->
  let r := MCCRMAImplicitExponential uabs P Q M pc0 beta K xi f_mu ev in let pc := Rmax (1/100) (pc0 * exp (- xi * ev)) in
  (cam_clay M beta pc P Q <= 0 -> rm_plastic r = false /\ rm_p r = P /\ rm_q r = Q) /\
  (0 < cam_clay M beta pc P Q -> rm_plastic r = true /\ exists pc', 0 < pc' /\ on_ellipse M beta pc' (rm_p r) (rm_q r)).
Proof. intros uabs P Q M pc0 beta K xi f_mu ev Hp Hb HM r pc. destruct (implicit_exponential_spec uabs P Q M pc0 beta K xi f_mu ev Hp Hb HM) as (_ & A & B). auto. Qed.
Print Assumptions C39_implicit_exponential.

(** Result of the one-variable implicit algorithms for a yielding state, where [H] is the hardening
    law and [ev'] the plastic volume strain that goes with the new pressure: on the ellipse of
    [ev']; or clamped to an end of another ellipse, with zero shear stress; or the preconsolidation
    pressure has collapsed by a factor of about 10^4 in this step. *)
Definition implicit_return (H : R -> R) (M beta K ev P : R) (p' q' : R) : Prop :=
  let ev' := ev + (p' - P) / K in
  on_ellipse M beta (H ev') p' q' \/
  (exists pc, (p' = pc \/ p' = - beta * pc) /\ q' = 0 /\ on_ellipse M beta pc p' q') \/
  (1 + beta) * H ev' < 1/5000 * H ev.
Lemma implicit_return_spec : forall H M beta K ev P r, 0 < K -> 0 <= beta -> 0 <= M -> (forall e, 0 <= H e) -> implicit_result H M beta K ev P r ->
  implicit_return H M beta K ev P (rm_p r) (rm_q r).
Proof.
  intros H M beta K ev P r HK Hb HM H0 (e & [(A & B)|(A & B & C)]); cbv zeta in *; unfold implicit_return; cbv zeta.
  - set (pe := P + K * (e - ev)) in *. set (pc := H e) in *. assert (Pc : 0 <= pc) by apply H0. assert (Bp : 0 <= beta * pc) by (apply Rmult_le_pos; auto).
    destruct (Rle_lt_dec (- beta * pc) pe) as [L|L]; [destruct (Rle_lt_dec pe pc) as [L1|L1]|].
    + rewrite into_range_id in A by auto. left. replace (ev + (rm_p r - P) / K) with e by (rewrite A; unfold pe; field; lra). exact B.
    + right. left. exists pc. assert (E : rm_p r = pc) by (rewrite A; unfold into_range; rewrite Rmax_left by lra; apply Rmin_right; lra).
      split; auto. split; auto. destruct B as (_ & Q0 & B). rewrite E in B. unfold cam_clay in B. replace (pc - pc) with 0 in B by ring. unfold Rsqr in B. nra.
    + right. left. exists pc. assert (E : rm_p r = - beta * pc) by (rewrite A; unfold into_range; rewrite Rmax_right by lra; apply Rmin_left; lra).
      split; auto. split; auto. destruct B as (_ & Q0 & B). rewrite E in B. unfold cam_clay in B. replace (- beta * pc + beta * pc) with 0 in B by ring. unfold Rsqr in B. nra.
  - set (pe := P + K * (e - ev)) in *. set (pc := H e) in *. assert (Pc : 0 <= pc) by apply H0. assert (Bp : 0 <= beta * pc) by (apply Rmult_le_pos; auto).
    assert (Ev : ev + (rm_p r - P) / K = e) by (rewrite A; unfold pe; field; lra). rewrite Ev. fold pc.
    destruct (Rlt_le_dec ((1 + beta) * pc) (1/5000 * H ev)) as [L|L]; [right; right; auto|]. left. rewrite A, B.
    assert (Rg : - beta * pc <= pe <= pc) by (unfold Rabs in C; destruct (Rcase_abs _); nra).
    apply (q_ellipse M beta pc pe HM Rg).
Qed.
Theorem C39_implicit_onevar : forall uabs P Q M pc0 beta mu K xi ev r H, 0 < pc0 -> 0 < K -> 0 <= beta -> 0 <= M ->
  (r = MCCRMAImplicitExponentialOnevar uabs P Q M pc0 beta mu K xi ev /\ H = (fun e => pc0 * exp (- xi * e))) \/
  (r = MCCRMAImplicitSinhOnevar P Q M pc0 beta mu K xi ev /\ H = (fun e => Rmax (1/100) (K * sinh (- xi * e + Rasinh (pc0 / K))))) ->
  (cam_clay M beta (H ev) P Q <= 0 -> rm_plastic r = false /\ rm_p r = P /\ rm_q r = Q) /\
  (0 < cam_clay M beta (H ev) P Q -> rm_plastic r = true /\ implicit_return H M beta K ev P (rm_p r) (rm_q r)).
Proof.
  intros uabs P Q M pc0 beta mu K xi ev r H Hp HK Hb HM [(-> & ->)|(-> & ->)].
  - destruct (implicit_exponential_onevar_spec uabs P Q M pc0 beta mu K xi ev Hp Hb HM) as (A & B). split; intros X; [destruct (A X) as (Y & _ & Z); auto|].
    destruct (B X) as (Y & Z). split; auto. apply implicit_return_spec; auto. intros e. apply Rlt_le, Rmult_lt_0_compat; auto. apply exp_pos.
  - destruct (implicit_sinh_onevar_spec P Q M pc0 beta mu K xi ev Hp HK Hb HM) as (A & B). split; intros X; [destruct (A X) as (Y & _ & Z); auto|].
    destruct (B X) as (Y & Z). split; auto. apply implicit_return_spec; auto. intros e. eapply Rle_trans; [|apply Rmax_l]. lra.
Qed.
Print Assumptions C39_implicit_onevar.

(** The stress update with MCC. *)
Theorem C39_cam_clay_update : forall G, two_or_three G -> forall svd uabs p dt F tau h o, updated svd uabs p dt F tau h o -> plastic_model p = MCC ->
  let S := trial_stress svd p F in let q := shear (q_prefac p) in let pc := preconsolidation p in
  0 < cam_clay (Mfric p) (beta p) (pc (h_vol h)) (pressure S) (q S) ->
  o_count o = 1%nat /\ h_vol (o_h o) = h_vol h + (pressure (o_tau o) - pressure S) / bulkK p /\
  exists q', (0 < q S -> q (o_tau o) = q' /\ h_dev (o_h o) = h_dev h + (q S - q') / (2 * q_prefac p * mu p)) /\ (q S = 0 -> q (o_tau o) = 0) /\
  match hardening_law p with
  | ExpoImpl | SinhImpl => implicit_return pc (Mfric p) (beta p) (bulkK p) (h_vol h) (pressure S) (pressure (o_tau o)) q'
  | _ => on_ellipse (Mfric p) (beta p) (pc (h_vol h)) (pressure (o_tau o)) q'
  end.
Proof.
  intros G HG svd uabs p dt F tau h o H Pm S q pc Y. setup G HG H. subst S q pc. cbv beta in *. rewrite EP, EQ in *. pose proof Sa as SA. destruct SA.
  unfold return_map in Hr. rewrite Pm in Hr. destruct (mcc_res uabs p El dt (trial s) T h Hdt sa_visc r Hr) as (r0 & pc & E & _ & K).
  destruct (mcc_rma_spec uabs p dt El Sa _ _ _ _ _ _ E) as (_ & A). destruct (A Y) as (Pl & X1 & X2). destruct (K Pl) as (_ & Cn & b & qs & Rs & B & _).
  destruct (B ltac:(rewrite Pm; discriminate)) as (-> & -> & _). destruct (res_pq p El U _ _ _ _ _ _ _ HU Rs) as (C & D). pose proof (K_pos p El) as HK.
  assert (C' : pressure (o_tau o) = rm_p r0) by (rewrite Htau, C; ring). rewrite C'. rewrite Hcnt, Hh. split; auto. split.
  { rewrite (rs_vol _ _ _ _ _ _ _ _ Rs). field. lra. }
  assert (Ex : explicit_law p \/ ~ explicit_law p) by (unfold explicit_law; destruct (hardening_law p); tauto).
  assert (IR : ~ explicit_law p -> implicit_return (preconsolidation p) (Mfric p) (beta p) (bulkK p) (h_vol h) (P p (trial s)) (rm_p r0) (rm_q r0)).
  { intros N. apply implicit_return_spec; auto; try lra. now apply precons_nonneg. }
  assert (Q0 : 0 <= rm_q r0 \/ (1 + beta p) * preconsolidation p (h_vol h + (rm_p r0 - P p (trial s)) / bulkK p) < 1/5000 * preconsolidation p (h_vol h)).
  { destruct Ex as [Z|Z]; [destruct (X1 Z) as (_ & ? & _); auto|]. destruct (IR Z) as [(_ & ? & _)|[(? & _ & _ & _ & ? & _)|?]]; auto. }
  assert (Q1 : 0 <= rm_q r0).
  { destruct Ex as [Z|Z]; [destruct (X1 Z) as (_ & ? & _); auto|]. destruct (X2 Z) as (e & [(_ & (_ & ? & _))|(_ & -> & _)]); auto. apply Rmult_le_pos; [lra|apply sqrt_pos]. }
  exists (rm_q r0). rewrite Htau, D. split; [|split].
  - intros Hq. split; [destruct (Rltb_spec 0 (Q p (trial s))); [|lra]; rewrite Rabs_pos_eq by lra; ring|].
    rewrite (rs_dev _ _ _ _ _ _ _ _ Rs), <- emu_R, Rmult_1_l. reflexivity.
  - intros Hq. destruct (Rltb_spec 0 (Q p (trial s))); lra.
  - unfold explicit_law in *. destruct (hardening_law p); auto.
Qed.
Print Assumptions C39_cam_clay_update.

(** ** C41 for MCCMui *)
Theorem C41_mcc_mui : forall G, two_or_three G -> forall svd uabs p dt F tau h o, updated svd uabs p dt F tau h o -> plastic_model p = MCCMui ->
  let S := trial_stress svd p F in let q := shear (q_prefac p) in let pc := preconsolidation p in
  0 < cam_clay (mu_1 p) (beta p) (pc (h_vol h)) (pressure S) (q S) -> 0 < q S ->
  (* yq is the yield value: with it the pressure reached would be on the yield surface *)
  exists yq, yq <= q (o_tau o) /\ (yq + stress_tolerance p < q S -> q (o_tau o) <= q S) /\ (q S <= yq + stress_tolerance p -> q (o_tau o) = yq) /\
    h_vol (o_h o) = h_vol h + (pressure (o_tau o) - pressure S) / bulkK p /\ h_dev h <= h_dev (o_h o) /\ o_count o = 1%nat /\
    match hardening_law p with
    | ExpoImpl | SinhImpl => implicit_return pc (mu_1 p) (beta p) (bulkK p) (h_vol h) (pressure S) (pressure (o_tau o)) yq
    | _ => on_ellipse (mu_1 p) (beta p) (pc (h_vol h)) (pressure (o_tau o)) yq
    end.
Proof.
  intros G HG svd uabs p dt F tau h o H Pm S q pc Y Y0. pose proof H as (_ & _ & Sa0 & _). pose proof (facQ_pos p Sa0) as HQ. setup G HG H. subst S q pc. cbv beta in *. rewrite EP, EQ in *. pose proof Sa as SA. destruct SA.
  unfold return_map in Hr. rewrite Pm in Hr. destruct (mccmui_res uabs p El dt (trial s) T h Hdt r Hr) as (r0 & pc & E & _ & K).
  destruct (mcc_rma_spec uabs p dt El Sa _ _ _ _ _ _ E) as (_ & A). destruct (A Y) as (Pl & X1 & X2). destruct (K Pl) as (_ & Cn & _ & qs & Rs & B & C & D).
  destruct (res_pq p El U _ _ _ _ _ _ _ HU Rs) as (C1 & C2). pose proof (K_pos p El) as HK. pose proof (emu_pos p El) as He.
  assert (Ex : explicit_law p \/ ~ explicit_law p) by (unfold explicit_law; destruct (hardening_law p); tauto).
  assert (Q1 : 0 <= rm_q r0).
  { destruct Ex as [Z|Z]; [destruct (X1 Z) as (_ & ? & _); auto|]. destruct (X2 Z) as (e & [(_ & (_ & ? & _))|(_ & -> & _)]); auto. apply Rmult_le_pos; [lra|apply sqrt_pos]. }
  exists (rm_q r0). rewrite Htau, C1, C2, Hh, Hcnt. destruct (Rltb_spec 0 (Q p (trial s))) as [Z|Z]; [|lra]. rewrite Rabs_pos_eq by lra. split; auto. split; [intros; apply C; lra|]. split; [intros; apply D; lra|].
  split; [apply (rs_vol _ _ _ _ _ _ _ _ Rs)|]. split; [|split; auto].
  - rewrite (rs_dev _ _ _ _ _ _ _ _ Rs). destruct (Rltb_spec (rm_q r0 + stress_tolerance p) (Q p (trial s))) as [L|L]; [|lra].
    assert (qs <= Q p (trial s)) by (apply C; lra). assert (0 <= (Q p (trial s) - qs) / e_mu_prefac p) by (apply Rmult_le_pos; [lra|apply Rlt_le, Rinv_0_lt_compat; auto]). lra.
  - assert (IR : ~ explicit_law p -> implicit_return (preconsolidation p) (mu_1 p) (beta p) (bulkK p) (h_vol h) (P p (trial s)) (rm_p r0) (rm_q r0)).
    { intros N. apply implicit_return_spec; auto; try lra. now apply precons_nonneg. }
    unfold explicit_law in *. destruct (hardening_law p); auto.
Qed.
Print Assumptions C41_mcc_mui.

(** ** C34, converse: states outside the elastic domain are counted as yielding *)
(** The exceptions: VMVisc below its tensile cap, and DPVisc / DPMui exactly at the tip. *)
Definition excepted {G : Geo R} (p : Par R) (h : Hist R) (P : R) : Prop :=
  match plastic_model p with
  | VMVisc => P < p_min p * exp (- xi p * h_vol h)
  | DPVisc => P + vol_shift p h = - q_cohesion p / Mfric p
  | DPMui => P + vol_shift p h = - q_cohesion p / mu_1 p
  | _ => False
  end.
Theorem C34_yielding_states : forall G, two_or_three G -> forall svd uabs p dt F tau h o, updated svd uabs p dt F tau h o ->
  let S := trial_stress svd p F in
  ~ elastic_domain p h (pressure S) (shear (q_prefac p) S) -> ~ excepted p h (pressure S) -> o_count o = 1%nat.
Proof.
  intros G HG svd uabs p dt F tau h o H S D X. pose proof H as (_ & _ & Sa0 & _). pose proof (facQ_pos p Sa0) as HQ. setup G HG H. subst S. rewrite EP, EQ in *. pose proof Sa as SA. destruct SA. rewrite Hcnt. clear Hcnt.
  unfold elastic_domain in D. unfold excepted in X. unfold return_map in Hr. destruct (plastic_model p) eqn:Pm; [tauto|..].
  - apply Ok_inj in Hr. destruct (vm_res p El dt (trial s) T h ltac:(lra)) as (_ & _ & K). rewrite Hr in K. destruct (K ltac:(lra)); tauto.
  - apply Ok_inj in Hr. destruct (dp_res p El dt (trial s) T h sa_M) as (K1 & K2). rewrite Hr in *. unfold dpy in *.
    destruct (Rlt_le_dec (Mfric p * P p (trial s) + q_cohesion p) (1/10000000000)) as [L|L]; [destruct (K1 L); tauto|].
    destruct (K2 L) as (_ & _ & K). destruct (K ltac:(lra)); tauto.
  - apply Ok_inj in Hr. pose proof (dps_res p El dt (trial s) T h sa_M) as K. rewrite Hr in K. cbv zeta in K. destruct K as (K1 & _ & K3 & K4).
    destruct (Rle_lt_dec (P p (trial s) + sh p h) (tip0 p h)) as [L|L]; [destruct (K1 L); tauto|].
    assert (L2 : sy p (trial s) h < Q p (trial s)) by (unfold sy, tip0, sh in *; lra). destruct (Rlt_le_dec (P p (trial s) + sh p h) (tip1 p (trial s) h)) as [L3|L3]; [destruct (K3 L L2 L3)|destruct (K4 L L2 L3)]; tauto.
  - destruct (mcc_res uabs p El dt (trial s) T h Hdt sa_visc r Hr) as (r0 & pc & E & _ & K). destruct (mcc_rma_spec uabs p dt El Sa _ _ _ _ _ _ E) as (_ & A). destruct (A ltac:(lra)) as (B & _). now apply K.
  - apply Ok_inj in Hr. destruct (vmv_res p El dt (trial s) T h Hdt sa_visc sa_q r (eq_sym Hr)) as (_ & _ & K). unfold cap, vy in K.
    destruct (K ltac:(lra) ltac:(lra)) as (g & _ & _ & _ & ? & _). auto.
  - apply Ok_inj in Hr. destruct (dpv_res p El dt (trial s) T h Hdt sa_visc sa_M r (eq_sym Hr)) as (K0 & _ & _ & K). unfold tipd, dy, sh in *.
    destruct (Rlt_le_dec (P p (trial s) + vol_shift p h) (- q_cohesion p / Mfric p)) as [L|L]; [destruct (K0 L); tauto|].
    destruct (K ltac:(lra) ltac:(lra)) as (g & _ & _ & _ & ? & _). auto.
  - destruct (mcc_res uabs p El dt (trial s) T h Hdt sa_visc r Hr) as (r0 & pc & E & _ & K). destruct (mcc_rma_spec uabs p dt El Sa _ _ _ _ _ _ E) as (_ & A). destruct (A ltac:(lra)) as (B & _). now apply K.
  - apply Ok_inj in Hr. destruct (dpm_res p El dt (trial s) T h Hdt sa_mu1 sa_mu2 HQ sa_tol r (eq_sym Hr)) as (K0 & _ & K). unfold tipm, my, sh in *.
    destruct (Rlt_le_dec (P p (trial s) + vol_shift p h) (- q_cohesion p / mu_1 p)) as [L|L]; [destruct (K0 L); tauto|].
    destruct (K ltac:(lra) ltac:(lra)) as (g & _ & _ & _ & ? & _). auto.
  - destruct (mccmui_res uabs p El dt (trial s) T h Hdt r Hr) as (r0 & pc & E & _ & K). destruct (mcc_rma_spec uabs p dt El Sa _ _ _ _ _ _ E) as (_ & A). destruct (A ltac:(lra)) as (B & _). now apply K.
Qed.
Print Assumptions C34_yielding_states.
