(** * PropNewton: C65, the Cam-Clay return mappings are Newton's method for associated flow. *)
From Coq Require Import Reals ZArith Lra Lia List Bool.
From Coquelicot Require Import Coquelicot.
From Verif Require Import Num NumR Tools Lin Types Transfer Rma Plastic Spec SpecPlastic LinProofs SpecNewton PlasticProofs PlasticModels RmaProofs PlasticGlue ResProofs PropPlastic PropRma NewtonProofs PathProofs CoupledProofs.
Import ListNotations.
Local Open Scope R_scope.

(** The Cam-Clay materials, and the slope of their critical state line. *)
Definition is_cam_clay {G : Geo R} (p : Par R) : Prop := match plastic_model p with MCC | MCCVisc | MCCMui => True | _ => False end.
Definition critical_slope {G : Geo R} (p : Par R) : R := match plastic_model p with MCCMui => mu_1 p | _ => Mfric p end.
(** Pressure of the yield surface to which a Duvaut-Lions material relaxes when the trial pressure
    [P] has become [P']; for the other materials it is [P'] itself. *)
Definition target_pressure {G : Geo R} (p : Par R) (dt P P' : R) : R :=
  match plastic_model p with MCCVisc => if use_dl p then P + (1 + visc_time p / dt) * (P' - P) else P' | _ => P' end.
(** An error of the return mapping is reported; only MCCVisc adds errors of its own. *)
Definition error_reported {G : Geo R} (p : Par R) (error reported : bool) : Prop :=
  (error = true -> reported = true) /\ (plastic_model p <> MCCVisc -> reported = error).

Lemma mcc_exit : forall G uabs (p : @Par R G) dt t h r r0 pc, pl_MCC uabs p dt t h = Ok r -> mcc_rma uabs p false (- bulkK p * t_tr t) (e_mu_prefac p * t_n t) (h_vol h) = Some (r0, pc) ->
  rm_exit r0 = true -> r_exit r = true.
Proof.
  intros G uabs p dt t h r r0 pc H E X. unfold pl_MCC in H. remember 60%nat as n60 eqn:E60 in H. clear E60. cbv zeta in H.
  change (nmul (nopp (bulkK p)) (t_tr t)) with (- bulkK p * t_tr t) in H. change (nmul (e_mu_prefac p) (t_n t)) with (e_mu_prefac p * t_n t) in H. rewrite E in H.
  destruct (rm_plastic r0).
  - match type of H with (let (_, _) := ?X in _) = _ => destruct X as ((b, qs), ex) end. apply bind_Ok in H. destruct H as (h2 & _ & H). apply Ok_inj in H. subst r. cbn [r_exit]. now rewrite X.
  - apply Ok_inj in H. subst r. exact X.
Qed.
Lemma mcc_update : forall G, two_or_three G -> forall svd uabs p dt F tau h o, updated svd uabs p dt F tau h o -> is_cam_clay p ->
  let S := trial_stress svd p F in 0 < cam_clay (critical_slope p) (beta p) (preconsolidation p (h_vol h)) (pressure S) (shear (q_prefac p) S) ->
  0 < bulkK p /\ 0 < mu p /\ 0 <= beta p /\ 0 <= critical_slope p /\ 0 < p0 p /\
  exists (mui : bool) r0 c, critical_slope p = (if mui then mu_1 p else Mfric p) /\ mcc_rma uabs p mui (pressure S) (shear (q_prefac p) S) (h_vol h) = Some (r0, c) /\
    target_pressure p dt (pressure S) (pressure (o_tau o)) = rm_p r0 /\ error_reported p (rm_exit r0) (o_exit o).
Proof.
  intros G HG svd uabs p dt F tau h o H Pm S Y. setup G HG H. subst S. rewrite EP, EQ in *. pose proof Sa as SA. destruct SA.
  split; [apply K_pos; auto|]. split; [apply mu_pos; auto|]. split; [lra|]. split; [unfold critical_slope; destruct (plastic_model p); lra|]. split; [lra|].
  unfold is_cam_clay, critical_slope, target_pressure, error_reported in *. unfold return_map in Hr.
  destruct (plastic_model p) eqn:Pe; try contradiction.
  - destruct (mcc_res uabs p El dt (trial s) T h Hdt sa_visc r Hr) as (r0 & pc & E & _ & K). exists false, r0, pc. split; [reflexivity|]. split; [exact E|].
    destruct (mcc_rma_spec uabs p dt El Sa _ _ _ _ _ _ E) as (_ & A). destruct (A Y) as (Pl & _). destruct (K Pl) as (_ & Cn & b & qs & Rs & B & _).
    destruct (B ltac:(rewrite Pe; discriminate)) as (-> & -> & Ex). destruct (res_pq p El U _ _ _ _ _ _ _ HU Rs) as (C & D). split; [rewrite Htau, C; ring|]. rewrite Hex, Ex. auto.
  - destruct (mcc_res uabs p El dt (trial s) T h Hdt sa_visc r Hr) as (r0 & pc & E & _ & K). exists false, r0, pc. split; [reflexivity|]. split; [exact E|].
    destruct (mcc_rma_spec uabs p dt El Sa _ _ _ _ _ _ E) as (_ & A). destruct (A Y) as (Pl & _). destruct (K Pl) as (_ & Cn & b & qs & Rs & _ & B1 & B2).
    destruct (res_pq p El U _ _ _ _ _ _ _ HU Rs) as (C & D). split; [|split; [|congruence]].
    + rewrite Htau, C. assert (Vt : 0 <= visc_time p / dt) by (apply Rmult_le_pos; auto; apply Rlt_le, Rinv_0_lt_compat; auto). set (w := visc_time p / dt) in *. clearbody w. destruct (use_dl p) eqn:Dl.
      * destruct (B1 Pe eq_refl) as (-> & _). field. lra.
      * destruct (B2 Pe eq_refl) as (-> & _). ring.
    + rewrite Hex. exact (mcc_exit G uabs p dt (trial s) h r r0 pc Hr E).
  - destruct (mccmui_res uabs p El dt (trial s) T h Hdt r Hr) as (r0 & pc & E & _ & K). exists true, r0, pc. split; [reflexivity|]. split; [exact E|].
    destruct (mcc_rma_spec uabs p dt El Sa _ _ _ _ _ _ E) as (_ & A). destruct (A Y) as (Pl & _). destruct (K Pl) as (_ & Cn & Ex & qs & Rs & _).
    destruct (res_pq p El U _ _ _ _ _ _ _ HU Rs) as (C & D). split; [rewrite Htau, C; ring|]. rewrite Hex, Ex. auto.
Qed.

(** ** Hardening laws evaluated at the old state *)
Theorem C65_explicit_laws : forall G, two_or_three G -> forall svd uabs p dt F tau h o, updated svd uabs p dt F tau h o -> is_cam_clay p ->
  hardening_law p <> ExpoImpl -> hardening_law p <> SinhImpl -> (forall d, 1/1000000 <= uabs d -> d <> 0) ->
  let S := trial_stress svd p F in let P := pressure S in let Q := shear (q_prefac p) S in let pc := preconsolidation p (h_vol h) in
  0 < cam_clay (critical_slope p) (beta p) pc P Q ->
  let Fs := flow_equations (critical_slope p) (beta p) pc (bulkK p) (2 * (q_prefac p)² * mu p) P Q in
  exists xs k, newton_sequence Fs uabs pc P Q xs /\ accepted Fs (1/1000) 39 xs k /\
    (satisfied Fs (1/1000) (xs k) \/ 1/10 < pc -> target_pressure p dt P (pressure (o_tau o)) = Rmin (Rmax (fst (fst (xs k))) (- beta p * pc)) pc) /\
    (~ satisfied Fs (1/1000) (xs k) -> pc <= 1/10 -> target_pressure p dt P (pressure (o_tau o)) = Rmin (Rmax (1/1000000000000000) (- beta p * pc)) pc).
Proof.
  intros G HG svd uabs p dt F tau h o H Pm N1 N2 Mag S P Q pc Y Fs.
  destruct (mcc_update G HG _ _ _ _ _ _ _ _ H Pm Y) as (_ & _ & _ & _ & _ & mui & r0 & c & Em & E & Ep & _). fold S P Q in E, Ep.
  assert (Er : r0 = MCCRMAExplicit uabs P Q (critical_slope p) pc (beta p) (bulkK p) (2 * (q_prefac p)² * mu p)).
  { assert (Ef : f_mu_prefac p = 2 * (q_prefac p)² * mu p) by (rewrite fmu_R, emu_R; unfold Rsqr; ring). unfold mcc_rma in E. unfold pc, preconsolidation. rewrite <- Ef, Em.
    destruct (hardening_law p); try congruence; try (destruct mui; [discriminate|]); apply some_pair in E; destruct E as (<- & _); rewrite ?cmax_R; reflexivity. }
  destruct (explicit_newton (critical_slope p) (beta p) pc (bulkK p) (2 * (q_prefac p)² * mu p) P Q uabs Mag Y) as (xs & k & A & B & C & D).
  exists xs, k. rewrite Ep, Er. auto.
Qed.
Print Assumptions C65_explicit_laws.

(** ** Hardening laws evaluated at the new state *)
(** The path is the flow rule: its points solve the first two flow equations. *)
Theorem C65_path_is_flow : forall H M beta K f Pt Qt et e, regular H M beta K f Pt et e ->
  match flow_equations M beta (H e) K f Pt Qt with
  | [F1; F2; F3] => let x := (path_p K Pt et e, path_q H M beta K f Pt Qt et e, path_l H M beta K Pt et e) in F1 x = 0 /\ F2 x = 0 /\ F3 x = path_y H M beta K f Pt Qt et e
  | _ => False
  end.
Proof.
  intros H M beta K f Pt Qt et e (R1 & R2). unfold flow_equations. cbv zeta. split; [|split; [|reflexivity]].
  - set (q := path_q H M beta K f Pt Qt et e). replace (Derive (fun a => cam_clay M beta (H e) a q) (path_p K Pt et e)) with (path_slope H M beta K Pt et e).
    + unfold path_l. assert (K <> 0) by (intros ->; apply R1; ring). field. split; auto. intros X. apply R1. rewrite X. ring.
    + unfold path_slope. apply is_derive_unique. replace (Derive _ (path_p K Pt et e)) with (M * M * (2 * path_p K Pt et e + (beta - 1) * H e)); [unfold cam_clay, Rsqr; auto_derive; auto; ring|].
      symmetry. apply is_derive_unique. unfold cam_clay, Rsqr. auto_derive; auto. ring.
  - replace (Derive _ (path_q H M beta K f Pt Qt et e)) with (2 * path_q H M beta K f Pt Qt et e); [unfold path_q; field; exact R2|].
    symmetry. apply is_derive_unique. unfold cam_clay, Rsqr. auto_derive; auto. ring.
Qed.
Print Assumptions C65_path_is_flow.

(** Exponential law.  Missing for the full claim: the shear modulus of the flow rule is mu, which is
    2 q_prefac^2 mu only for the default q_prefac. *)
Theorem C65_implicit_exponential_partial : forall G, two_or_three G -> forall svd uabs p dt F tau h o, updated svd uabs p dt F tau h o -> is_cam_clay p -> hardening_law p = ExpoImpl ->
  let S := trial_stress svd p F in let P := pressure S in let Q := shear (q_prefac p) S in let u := preconsolidation p (h_vol h) in
  0 < cam_clay (critical_slope p) (beta p) u P Q ->
  (* stresses in units of u *)
  let H := fun e => preconsolidation p e / u in let K := bulkK p / u in let f := mu p / u in
  let slope := Derive (path_y H (critical_slope p) (beta p) K f (P / u) (Q / u) (h_vol h)) in
  exists es sides k P' error, newton_path H (critical_slope p) (beta p) K f (P / u) (Q / u) (h_vol h) slope uabs es sides k /\
    path_end H (critical_slope p) (beta p) K f (P / u) (Q / u) (h_vol h) slope uabs 30 (fun _ => False) es sides k P' error /\ target_pressure p dt P (pressure (o_tau o)) = P' * u /\ error_reported p error (o_exit o).
Proof.
  intros G HG svd uabs p dt F tau h o U Pm Hl S P Q u Y H K f slope.
  destruct (mcc_update G HG _ _ _ _ _ _ _ _ U Pm Y) as (_ & _ & _ & _ & Hp & mui & r0 & c & Em & E & Ep & Ex). fold S P Q in E, Ep. unfold mcc_rma in E. rewrite Hl in E. apply some_pair in E. destruct E as (Er & _). rewrite <- Em in Er. rewrite Ep. subst r0.
  subst slope. assert (EH : H = fun e => p0 p * exp (- xi p * e) / u) by (unfold H, preconsolidation; now rewrite Hl). assert (Eu : u = p0 p * exp (- xi p * h_vol h)) by (unfold u, preconsolidation; now rewrite Hl).
  rewrite EH. subst K f. clear EH H. clearbody u. subst u.
  destruct (exponential_path uabs (critical_slope p) (beta p) (bulkK p) (mu p) P Q (p0 p) (xi p) (h_vol h) Hp Y) as (es & sides & k & P' & A & B & C). exists es, sides, k, P', (rm_exit (MCCRMAImplicitExponentialOnevar uabs P Q (critical_slope p) (p0 p) (beta p) (mu p) (bulkK p) (xi p) (h_vol h))). auto.
Qed.
Print Assumptions C65_implicit_exponential_partial.
(** Sinh law.  Missing as well: the derivative of the hardening law is wrong, see
    [C65_sinh_derivative_refuted]; the step is Newton's for the law with that derivative. *)
Theorem C65_implicit_sinh_partial : forall G, two_or_three G -> forall svd uabs p dt F tau h o, updated svd uabs p dt F tau h o -> is_cam_clay p -> hardening_law p = SinhImpl ->
  let S := trial_stress svd p F in let P := pressure S in let Q := shear (q_prefac p) S in let u := preconsolidation p (h_vol h) in
  0 < cam_clay (critical_slope p) (beta p) u P Q ->
  let H := fun e => preconsolidation p e / u in let K := bulkK p / u in let f := mu p / u in
  let tangent := fun e a => H e + sinh_derivative (bulkK p) (p0 p) (xi p) u e * (a - e) in
  let slope := fun e => Derive (path_y (tangent e) (critical_slope p) (beta p) K f (P / u) (Q / u) (h_vol h)) e in
  exists es sides k P' error, newton_path H (critical_slope p) (beta p) K f (P / u) (Q / u) (h_vol h) slope Rabs es sides k /\
    path_end H (critical_slope p) (beta p) K f (P / u) (Q / u) (h_vol h) slope Rabs 40 (fun e => 1/100 < preconsolidation p e) es sides k P' error /\ target_pressure p dt P (pressure (o_tau o)) = P' * u /\ error_reported p error (o_exit o).
Proof.
  intros G HG svd uabs p dt F tau h o U Pm Hl S P Q u Y H K f tangent slope.
  destruct (mcc_update G HG _ _ _ _ _ _ _ _ U Pm Y) as (HK & _ & _ & _ & Hp & mui & r0 & c & Em & E & Ep & Ex). fold S P Q in E, Ep. unfold mcc_rma in E. rewrite Hl in E. apply some_pair in E. destruct E as (Er & _). rewrite <- Em in Er. rewrite Ep. subst r0.
  subst slope tangent. set (pc := fun e => Rmax (1/100) (bulkK p * sinh (- xi p * e + Rasinh (p0 p / bulkK p)))). assert (EP : preconsolidation p = pc) by (unfold pc, preconsolidation; now rewrite Hl).
  subst H K f. rewrite EP in *. subst u. rewrite EP in Y. rewrite EP.
  destruct (sinh_path (critical_slope p) (beta p) (bulkK p) (mu p) P Q (p0 p) (xi p) (h_vol h) Hp HK Y) as (es & sides & k & P' & A & B & C). exists es, sides, k, P', (rm_exit (MCCRMAImplicitSinhOnevar P Q (critical_slope p) (p0 p) (beta p) (mu p) (bulkK p) (xi p) (h_vol h))). auto.
Qed.
Print Assumptions C65_implicit_sinh_partial.
(** Wherever the sinh law is differentiable, the derivative used is off by 1/200 in the units of the pressure. *)
Theorem C65_sinh_derivative_refuted : forall G (p : @Par R G) u e, hardening_law p = SinhImpl -> 0 < bulkK p -> 0 < u ->
  let s := bulkK p * sinh (- xi p * e + Rasinh (p0 p / bulkK p)) in s <> 1/100 ->
  exists d, is_derive (fun e => preconsolidation p e / u) e d /\ sinh_derivative (bulkK p) (p0 p) (xi p) u e = d + (if Rlt_dec (1/100) s then -1 else 1) * (1/200 / u).
Proof. intros G p u e Hl HK Hu s Hs. pose proof (sinh_derivative_wrong (bulkK p) (p0 p) (xi p) u e HK Hu Hs) as W. cbv zeta in W. unfold preconsolidation. rewrite Hl. exact W. Qed.
Print Assumptions C65_sinh_derivative_refuted.

(** ** The one-variable solver without hardening (mcc_rma_explicit_onevar.hpp) *)
(** Newton's method approaches the ellipse from outside: the flow rule holds exactly with a
    nonnegative multiplier, and unless an error is raised the yield function is within tolerance. *)
Theorem C65_onevar : forall M beta pc K f Pt Qt, 0 < M -> 0 < K -> 0 < f -> 0 <= beta -> 0 < pc -> 0 < cam_clay M beta pc Pt Qt ->
  let r := MCCRMAExplicitOnevar Pt Qt M pc beta f K in
  match flow_equations M beta pc K f Pt Qt with
  | [F1; F2; F3] => exists p q l, let x := (p, q, l) in 0 <= l /\ F1 x = 0 /\ F2 x = 0 /\ 0 <= F3 x /\ (rm_exit r = false -> F3 x < 1/1000000 * pc²) /\ rm_p r = Rmin (Rmax p (- beta * pc)) pc
  | _ => False
  end.
Proof.
  intros M beta pc K f Pt Qt HM HK Hf Hb Hp Y r. unfold flow_equations. destruct (explicit_onevar M beta pc K f Pt Qt HM HK Hf Hb Hp Y) as (p & q & l & A1 & A2 & A3 & A4 & A5 & A6). exists p, q, l. cbv zeta.
  split; [exact A1|]. split; [|split; [|auto]].
  - rewrite <- A2. do 2 f_equal. apply is_derive_unique. unfold cam_clay, Rsqr. auto_derive; auto. ring.
  - rewrite <- A3. do 2 f_equal. apply is_derive_unique. unfold cam_clay, Rsqr. auto_derive; auto. ring.
Qed.
Print Assumptions C65_onevar.

(** Non-vacuity: a sheared clay with every hardening law, and the numbers of the last theorem. *)
From Verif Require Import SvdExist ExStep ExMech ExPlastic.
Example C65_ex : forall uabs hl, let p := clay_law hl MCC in exists o, updated svdx uabs p 1 (stretch 1 0) mzero h0 o /\
  (let S := trial_stress svdx p (stretch 1 0) in 0 < cam_clay (Mfric p) (beta p) (preconsolidation p (h_vol h0)) (pressure S) (shear (q_prefac p) S)) /\
  (forall d, 1/1000000 <= Rabs d -> d <> 0).
Proof.
  intros uabs hl p. destruct (C39_ex uabs hl) as (o & A & B). exists o. split; [exact A|]. split; [exact B|]. intros d Hd ->. rewrite Rabs_R0 in Hd. lra.
Qed.
(** A path with a regular starting point at which Newton's method moves, and a point where the sinh law is smooth. *)
Example C65_path_ex : let H := fun e => exp (- e) in regular H 1 1 1 1 2 0 0 /\ path_y H 1 1 1 1 2 0 0 0 = 3.
Proof.
  assert (S : path_slope (fun e => exp (- e)) 1 1 1 2 0 0 = 4).
  { unfold path_slope, path_p. apply is_derive_unique. unfold cam_clay, Rsqr. auto_derive; auto. ring. }
  unfold regular, path_y, path_q, path_l, path_p, cam_clay, Rsqr. rewrite S, Ropp_0, exp_0. repeat split; lra.
Qed.
Example C65_sinh_ex : let p := clay_law SinhImpl MCC in hardening_law p = SinhImpl /\ 0 < bulkK p /\ bulkK p * sinh (- xi p * 0 + Rasinh (p0 p / bulkK p)) <> 1/100.
Proof.
  intros p. split; [reflexivity|]. assert (K : 0 < bulkK p) by (unfold p, clay_law; rewrite pl_K; lra). split; [exact K|]. rewrite Rmult_0_r, Rplus_0_l, sinh_Rasinh. change (p0 p) with 1000. replace (bulkK p * (1000 / bulkK p)) with 1000 by (field; lra). lra.
Qed.
Example C65_onevar_ex : 0 < cam_clay 1 1 1 2 1. Proof. unfold cam_clay, Rsqr. lra. Qed.

(** ** The solver in three unknowns with implicit exponential hardening *)
(** mcc_rma_implicit_exponential.hpp is shipped but no material calls it.  Without tensile strength
    ([beta = 0]) or hardening ([xi = 0]) it is Newton's method; the pressure used for clipping lags
    one iterate behind when the 40 iterates are used up.  Missing: [beta * xi <> 0], where the
    derivative in the code has a wrong sign ([C65_three_variable_slope_refuted]). *)
Theorem C65_three_variable_partial : forall M beta pc0 xi K f ev Pt Qt mag, K <> 0 -> beta * xi = 0 -> (forall d, 1/1000000 <= mag d -> d <> 0) ->
  0 < cam_clay M beta (Rmax (1/100) (pc0 * exp (- xi * ev))) Pt Qt ->
  let H := fun p => pc0 * exp (- xi * (ev + (p - Pt) / K)) in let Fs := coupled_equations H M beta K f Pt Qt in
  exists xs k pc r, newton_sequence Fs mag pc0 Pt Qt xs /\ accepted Fs (1/1000) 40 xs k /\
    let p := fun j => fst (fst (xs j)) in
    ((k < 40)%nat -> r = p k /\ pc = H (p k)) /\
    (k = 40%nat -> pc = H (p 39%nat) /\ (101/1000 < pc -> r = p 40%nat) /\ (pc <= 101/1000 -> r = 1/1000000000000000)) /\
    let out := MCCRMAImplicitExponential mag Pt Qt M pc0 beta K xi f ev in rm_p out = Rmin (Rmax r (- beta * pc)) pc /\ rm_q out = M * sqrt ((pc - rm_p out) * (beta * pc + rm_p out)) /\ rm_plastic out = true.
Proof. intros M beta pc0 xi K f ev Pt Qt mag HK Hb Mag Y. exact (coupled_newton M beta pc0 xi K f ev Pt Qt HK Hb mag Mag Y). Qed.
Print Assumptions C65_three_variable_partial.
Example C65_three_variable_ex : 0 < cam_clay 1 0 (Rmax (1/100) (1 * exp (- 1 * 0))) 2 1 /\ (forall d, 1/1000000 <= Rabs d -> d <> 0).
Proof.
  split.
  - replace (- 1 * 0) with 0 by ring. rewrite exp_0, Rmax_right by lra. unfold cam_clay, Rsqr. lra.
  - intros d H ->. rewrite Rabs_R0 in H. lra.
Qed.
(** The derivative coded at mcc_rma_implicit_exponential.hpp:34 is not that of the yield function. *)
Theorem C65_three_variable_slope_refuted : forall M beta pc0 xi K ev Pt p q, K <> 0 -> M <> 0 -> pc0 <> 0 -> beta * xi <> 0 ->
  let H := fun a => pc0 * exp (- xi * (ev + (a - Pt) / K)) in let dH := - xi / K * H p in
  M * M * (2 * p + (beta - 1) * (dH * p + H p) + 2 * beta * H p * dH) <> Derive (fun a => cam_clay M beta (H a) a q) p.
Proof.
  intros M beta pc0 xi K ev Pt p q HK HM Hp Hb H dH. pose proof (cy_der M beta pc0 xi K ev Pt HK p q) as D.
  apply (is_derive_ext _ (fun a => cam_clay M beta (H a) a q)) in D; [|intros t; symmetry; apply cam_cy].
  apply is_derive_unique in D. change (Derive (fun a : R => cam_clay M beta (H a) a q) p = sl M beta pc0 xi K ev Pt p - 4 * (M * M) * beta * Hd pc0 xi K ev Pt p * Hd1 pc0 xi K ev Pt p) in D. rewrite D. unfold sl. fold (H p). change (Hd1 pc0 xi K ev Pt p) with dH. change (Hd pc0 xi K ev Pt p) with (H p). intros E.
  assert (Z : 4 * (M * M) * beta * H p * dH = 0) by lra. unfold dH in Z.
  assert (N : H p <> 0) by (apply Rmult_integral_contrapositive; split; [auto|]; apply Rgt_not_eq, exp_pos).
  assert (Z' : 4 * (M * M) * (beta * xi) * (H p * H p) = 0) by (replace (4 * (M * M) * (beta * xi) * (H p * H p)) with (- K * (4 * (M * M) * beta * H p * (- xi / K * H p))) by (field; auto); rewrite Z; ring).
  revert N Z'. generalize (H p). intros h N Z'. repeat (apply Rmult_integral in Z'; destruct Z' as [Z'|Z']); try lra; try contradiction; apply Hb; rewrite Z'; ring.
Qed.
Print Assumptions C65_three_variable_slope_refuted.
