(** * PropVisc: C72, the viscous return mappings are Newton's method for their flow rules. *)
From Coq Require Import Reals ZArith Lra Lia List Bool.
From Coquelicot Require Import Coquelicot.
From Verif Require Import Num NumR Tools Lin Types Transfer Rma Plastic Spec SpecPlastic SpecVisc LinProofs ResProofs PlasticProofs RmaProofs PlasticModels PlasticGlue PropPlastic PropRma.
Import ListNotations.
Local Open Scope R_scope.

(** ** The loop *)
Section Loop.
  Variables (res resd : R -> R) (x0 : R).
  Definition loop_next (x : R) : R := let y := x - res x / safe_slope (resd x) in if Rlt_dec y 0 then 1/10000000000 else y.
  Fixpoint iter (k : nat) : R := match k with O => x0 | S k => loop_next (iter k) end.
  Lemma iter_nonneg : 0 <= x0 -> forall k, 0 <= iter k.
  Proof. intros H [|k]; [exact H|]. cbn [iter]. unfold loop_next. cbv zeta. destruct (Rlt_dec _ 0); lra. Qed.
  Lemma newton_trace : forall n k dg ex, (k + n = 60)%nat -> (forall j, (j < k)%nat -> 1/100 <= Rabs (res (iter j))) ->
    newton n res resd (iter k) (60 <=? k)%nat = (dg, ex) ->
    exists k', iterate_taken res iter k' /\ dg = iter k' /\ (ex = true <-> (59 <= k')%nat).
  Proof.
    induction n as [|n IH]; intros k dg ex Hk Hj H; cbn [newton] in H.
    - apply pair_equal_spec in H. destruct H as (<- & <-). exists k. split; [split; [lia|split; [exact Hj|left; lia]]|]. split; [reflexivity|].
      rewrite Nat.leb_le. lia.
    - numR. destruct (Rltb_spec (Rabs (res (iter k))) (1/100)) as [L|L].
      + apply pair_equal_spec in H. destruct H as (<- & <-). exists k. split; [split; [lia|split; [exact Hj|right; exact L]]|]. split; [reflexivity|].
        destruct n as [|n]; [split; [lia|reflexivity]|]. rewrite Nat.leb_le. split; lia.
      + apply (IH (S k)); [lia| |].
        * intros j Hj1. destruct (Nat.eq_dec j k) as [->|]; [lra|apply Hj; lia].
        * rewrite <- H. f_equal.
          -- cbn [iter]. unfold loop_next, safe_slope, e14, e10. rewrite ?nofZ_R. numR. cbv zeta.
             destruct (Rltb_spec (Rabs (resd (iter k))) (1/100000000000000)), (Rlt_dec (Rabs (resd (iter k))) (1/100000000000000)); try lra.
             ++ destruct (Rleb_spec 0 (resd (iter k))), (Rle_dec 0 (resd (iter k))); try lra;
                match goal with |- context [Rltb ?a 0] => destruct (Rltb_spec a 0); destruct (Rlt_dec a 0); try lra end.
             ++ match goal with |- context [Rltb ?a 0] => destruct (Rltb_spec a 0); destruct (Rlt_dec a 0); try lra end.
          -- destruct n as [|n]; [apply Nat.leb_le; lia|]. transitivity false; [|symmetry]; apply Nat.leb_gt; lia.
  Qed.
  (** [f] is the residual of a specification, equal to [res] for nonnegative arguments, with derivative [resd] for positive ones. *)
  Lemma newton_run : forall (f : R -> R) dg ex, 0 <= x0 -> (forall x, 0 <= x -> f x = res x) -> (forall x, 0 < x -> is_derive res x (resd x)) ->
    newton 60 res resd x0 false = (dg, ex) ->
    exists xs k, newton_iterates f x0 xs /\ iterate_taken f xs k /\ dg = xs k /\ (ex = true <-> (59 <= k)%nat).
  Proof.
    intros f dg ex H0 E D H. destruct (newton_trace 60 0 dg ex eq_refl ltac:(intros; lia) H) as (k & (A & B & C) & Hd & Hx).
    exists iter, k. pose proof (iter_nonneg H0) as N. split; [split; [reflexivity|]|split; [|auto]].
    - intros j. split; [apply N|]. intros Hj. cbn [iter]. unfold loop_next, newton_next. cbv zeta. rewrite (E _ (N j)).
      replace (Derive f (iter j)) with (resd (iter j)); [reflexivity|]. symmetry. apply is_derive_unique. apply (is_derive_ext_loc res); [|apply D; exact Hj].
      apply (locally_interval _ _ 0 p_infty); cbn; auto. intros y Hy _. symmetry. apply E. lra.
    - split; [exact A|]. split; [intros j Hj; rewrite E by apply N; auto|]. destruct C as [C|C]; [left; exact C|right; now rewrite E by apply N].
  Qed.
End Loop.

(** ** Derivatives of the flow rules *)
Section Derivs.
  Context {G : Geo R}.
  Variables (p : Par R) (dt : R).
  Hypothesis El : elastic p.
  Hypothesis Hdt : 0 < dt.
  Hypothesis Hv : 0 <= visc_time p.
  Hypothesis Hn : 0 < visc_exponent p.
  Lemma pow'_derive : forall n x, 0 < x -> is_derive (fun t => Rpow' t n) x (n * Rpow' x (n - 1)).
  Proof.
    intros n x Hx. apply (is_derive_ext_loc (fun t => exp (n * ln t))).
    { apply (locally_interval _ _ 0 p_infty); cbn; auto. intros y Hy _. unfold Rpow'. destruct (Req_EM_T y 0); [lra|reflexivity]. }
    auto_derive; [auto|]. unfold Rpow'. destruct (Req_EM_T x 0); [lra|]. replace ((n - 1) * ln x) with (n * ln x + - ln x) by ring. rewrite exp_plus, exp_Ropp, exp_ln by auto. field. lra.
  Qed.
  Lemma pow'_mult : forall n a b, 0 <= a -> 0 < b -> 0 < n -> Rpow' (a * b) n = Rpow' a n * Rpow' b n.
  Proof.
    intros n a b Ha Hb Hnn. unfold Rpow'. destruct (Req_EM_T n 0); [lra|]. destruct (Req_EM_T b 0); [lra|]. destruct (Req_EM_T a 0) as [->|Na].
    - rewrite Rmult_0_l. destruct (Req_EM_T 0 0); [|lra]. ring.
    - destruct (Req_EM_T (a * b) 0) as [Z|_]; [apply Rmult_integral in Z; lra|]. rewrite ln_mult by lra. rewrite <- exp_plus. f_equal. ring.
  Qed.
  Variables (Q : R) (y yd : R -> R).
  Hypothesis Hy : forall x, is_derive y x (yd x).
  Lemma perz_derive : forall x, 0 < x -> is_derive (fun d => perz_res p dt Q (y d) d) x (perz_diff p dt Q x - yd x).
  Proof.
    intros x Hx. unfold perz_res, perz_diff. rewrite ?nofZ_R. numR. assert (V0 : 0 <= visc_time p * x) by (apply Rmult_le_pos; lra).
    assert (T0 : 0 < visc_time p * x + dt) by lra. assert (T1 : 0 < dt / (visc_time p * x + dt)) by (apply Rdiv_lt_0_compat; auto).
    set (u := fun d => dt / (visc_time p * d + dt)). set (n := visc_exponent p).
    assert (Du : is_derive u x (- visc_time p * dt / ((visc_time p * x + dt) * (visc_time p * x + dt)))). { unfold u. auto_derive; [lra|]. field. lra. }
    pose proof (is_derive_comp (fun t => Rpow' t n) u x _ _ (pow'_derive n (u x) T1) Du) as Dp.
    set (W := fun d => Rpow' (u d) n). change (is_derive W x ((- visc_time p * dt / ((visc_time p * x + dt) * (visc_time p * x + dt))) * (n * Rpow' (u x) (n - 1)))) in Dp.
    apply (is_derive_ext (fun d => (Q - f_mu_prefac p * d) * W d - y d)); [reflexivity|].
    pose proof (Hy x) as Yx. change (dt / (visc_time p * x + dt)) with (u x). change (Rpow' (u x) n) with (W x). set (w1 := Rpow' (u x) (n - 1)) in *. set (fm := f_mu_prefac p). clearbody fm w1 W.
    auto_derive; [repeat split; [eexists; exact Dp|eexists; exact Yx]|].
    replace (Derive (fun x0 : R => y x0) x) with (yd x) by (symmetry; apply is_derive_unique; exact Yx).
    replace (Derive (fun x0 : R => W x0) x) with ((- visc_time p * dt / ((visc_time p * x + dt) * (visc_time p * x + dt))) * (n * w1)) by (symmetry; apply is_derive_unique; exact Dp).
    field. lra.
  Qed.
  Lemma dl_derive : forall x, 0 < x -> is_derive (fun d => dl_res p dt Q (y d) d) x (- yd x - f_mu_prefac p * (Rpow' (visc_time p / dt) (visc_exponent p) * visc_exponent p * Rpow' x (visc_exponent p - 1) + 1)).
  Proof.
    intros x Hx. unfold dl_res. numR. set (n := visc_exponent p) in *. set (a := visc_time p / dt).
    assert (Ha : 0 <= a) by (apply Rmult_le_pos; auto; apply Rlt_le, Rinv_0_lt_compat; auto).
    apply (is_derive_ext_loc (fun d => Q - y d - f_mu_prefac p * (Rpow' a n * Rpow' d n + d))).
    { apply (locally_interval _ _ 0 p_infty); cbn; auto. intros z Hz _. rewrite pow'_mult by auto. reflexivity. }
    pose proof (Hy x) as Yx. pose proof (pow'_derive n x Hx) as Dp. set (fm := f_mu_prefac p). clearbody fm. auto_derive; [repeat split; [eexists; exact Yx|eexists; exact Dp]|].
    replace (Derive (fun x0 : R => y x0) x) with (yd x) by (symmetry; apply is_derive_unique; exact Yx).
    replace (Derive (fun x0 : R => Rpow' x0 n) x) with (n * Rpow' x (n - 1)) by (symmetry; apply is_derive_unique; exact Dp). ring.
  Qed.
  Lemma flow_of_code : forall x, 0 <= x -> flow_rule p (Q - 2 * (q_prefac p)² * mu p * x) (y x) (x / dt) = if use_dl p then dl_res p dt Q (y x) x else perz_res p dt Q (y x) x.
  Proof.
    intros x Hx. assert (E : x = x / dt * dt) by (field; lra). assert (H1 : 0 <= x / dt) by (apply Rmult_le_pos; auto; apply Rlt_le, Rinv_0_lt_compat; auto).
    assert (FM : f_mu_prefac p = 2 * (q_prefac p)² * mu p) by (rewrite fmu_R, emu_R; unfold Rsqr; ring). rewrite <- FM.
    unfold flow_rule. destruct (use_dl p).
    - symmetry. rewrite E at 2. rewrite (dl_R p dt Hdt Q (y x) (x / dt)) by auto. now rewrite <- E.
    - symmetry. rewrite E at 2. rewrite (perz_R p dt Hdt Hv Q (y x) (x / dt)) by auto. now rewrite <- E.
  Qed.
End Derivs.
Ltac hist := cbn [h_dev h_vol h_prad h_dg h_visc h_muI add_dev add_vol set_prad set_dg set_visc set_muI r_h r_hencky r_upd r_cnt r_exit]; numR.

(** ** The materials *)
(** Viscous von Mises, unless the closed form applies. *)
Theorem C72_von_mises : forall G, two_or_three G -> forall svd uabs p dt F tau h o, updated svd uabs p dt F tau h o -> plastic_model p = VMVisc ->
  let S := trial_stress svd p F in let Q := shear (q_prefac p) S in let f := 2 * (q_prefac p)² * mu p in
  p_min p * exp (- xi p * h_vol h) <= pressure S -> vm_yield p (h_dev h) < Q -> visc_exponent p <> 1 \/ xi p <> 0 ->
  let residual := fun d => flow_rule p (Q - f * d) (vm_yield p (h_dev h + q_prefac p * d)) (d / dt) in
  exists xs k, newton_iterates residual (1/100 * (Q - vm_yield p (h_dev h)) / f) xs /\ iterate_taken residual xs k /\
    viscous_return p dt S h o (xs k / dt) (Q - f * xs k) /\ (o_exit o = true <-> (59 <= k)%nat).
Proof.
  intros G HG svd uabs p dt F tau h o H Pm S Q f H1 H2 Hnx residual.
  destruct (C38_viscous_von_mises G HG svd uabs p dt F tau h o H Pm H1 H2) as (g & q' & R & _).
  setup G HG H. subst S Q f. rewrite EP in H1. subst residual. cbv beta. rewrite EQ in *.
  assert (FM : f_mu_prefac p = 2 * (q_prefac p)² * mu p) by (rewrite fmu_R, emu_R; unfold Rsqr; ring). rewrite <- FM in *.
  unfold return_map in Hr. rewrite Pm in Hr. apply Ok_inj in Hr. destruct Sa. unfold pl_VMVisc in Hr. remember 60%nat as n60 eqn:E60 in Hr. rewrite ?nofZ_R in Hr; numR; rewrite ?(dpre_inv p El) in Hr. cbv zeta in Hr.
  change (- bulkK p * t_tr (trial s)) with (P p (trial s)) in Hr. change (e_mu_prefac p * t_n (trial s)) with (PlasticModels.Q p (trial s)) in Hr.
  set (QQ := PlasticModels.Q p (trial s)) in *. fold (vm_yield p (h_dev h)) in Hr.
  match type of Hr with context [Rltb ?a ?b] => destruct (Rltb_spec a b); [lra|] end. destruct (Rltb_spec (vm_yield p (h_dev h)) QQ); [|contradiction].
  destruct (Reqb (visc_exponent p) 1 && Reqb (xi p) 0)%bool eqn:C.
  { exfalso. apply andb_true_iff in C. destruct C as (E1 & E2). apply Reqb_true in E1, E2. tauto. }
  match type of Hr with context [let (_, _) := ?X in _] => destruct X as (dg, ex) eqn:N end. subst n60.
  pose proof (fmu_pos p El) as Hf.
  eapply newton_run with (f := fun d => flow_rule p (QQ - f_mu_prefac p * d) (vm_yield p (h_dev h + q_prefac p * d)) (d / dt)) in N.
  - destruct N as (xs & k & A & B & Hd & Hx). exists xs, k. split; [exact A|]. split; [exact B|].
    assert (Eg : g = xs k / dt). { destruct R as (_ & _ & _ & _ & _ & _ & R & _). rewrite <- R, Hh, <- Hr. hist. now rewrite Hd. }
    split; [|rewrite Hex, <- Hr; exact Hx]. rewrite Eg in R. assert (Eq : q' = QQ - f_mu_prefac p * xs k). { destruct R as (_ & -> & _). rewrite EQ, <- FM. fold QQ. field. lra. }
    rewrite <- Eq. exact R.
  - apply Rlt_le, Rdiv_lt_0_compat; lra.
  - intros x Hx. rewrite FM. rewrite (flow_of_code p dt Hdt sa_visc sa_n QQ (fun d => vm_yield p (h_dev h + q_prefac p * d)) x Hx). reflexivity.
  - intros x Hx.
    set (yd := fun d => - xi p * q_prefac p * (q_max p - q_min p) * exp (- xi p * (h_dev h + q_prefac p * d))).
    assert (Dy : forall d, is_derive (fun d => vm_yield p (h_dev h + q_prefac p * d)) d (yd d)). { intros d. unfold vm_yield, yd. auto_derive; auto. ring. }
    assert (Ey : - xi p / d_prefac p * (q_max p - q_min p) * exp (- xi p * (h_dev h + q_prefac p * x)) = yd x).
    { unfold yd. rewrite <- (dpre_inv p El). unfold Rdiv. ring. }
    destruct (use_dl p).
    + rewrite Ey. exact (dl_derive p dt Hdt sa_visc sa_n QQ _ yd Dy x Hx).
    + rewrite Ey. exact (perz_derive p dt Hdt sa_visc QQ _ yd Dy x Hx).
Qed.
Print Assumptions C72_von_mises.

(** Viscous Drucker-Prager. *)
Theorem C72_drucker_prager : forall G, two_or_three G -> forall svd uabs p dt F tau h o, updated svd uabs p dt F tau h o -> plastic_model p = DPVisc ->
  let S := trial_stress svd p F in let Q := shear (q_prefac p) S in let f := 2 * (q_prefac p)² * mu p in
  let shifted := pressure S + vol_shift p h in let yield := Mfric p * shifted + q_cohesion p in
  - q_cohesion p / Mfric p < shifted -> yield < Q -> visc_exponent p <> 1 ->
  let residual := fun d => flow_rule p (Q - f * d) yield (d / dt) in
  exists xs k, newton_iterates residual (1/100 * (Q - yield) / f) xs /\ iterate_taken residual xs k /\
    viscous_return p dt S h o (xs k / dt) (Q - f * xs k) /\ (o_exit o = true <-> (59 <= k)%nat).
Proof.
  intros G HG svd uabs p dt F tau h o H Pm S Q f shifted yield H1 H2 Hnx residual.
  destruct (C38_viscous_drucker_prager G HG svd uabs p dt F tau h o H Pm) as (_ & R). destruct (R H1 H2) as (g & q' & R' & _). clear R. rename R' into R.
  setup G HG H. subst S Q f residual yield shifted. cbv beta. rewrite EP, EQ in *.
  assert (FM : f_mu_prefac p = 2 * (q_prefac p)² * mu p) by (rewrite fmu_R, emu_R; unfold Rsqr; ring). rewrite <- FM in *.
  unfold return_map in Hr. rewrite Pm in Hr. apply Ok_inj in Hr. destruct Sa. unfold pl_DPVisc in Hr. remember 60%nat as n60 eqn:E60 in Hr. rewrite ?nofZ_R in Hr; numR; rewrite ?(dpre_inv p El) in Hr. cbv zeta in Hr.
  change (- bulkK p * t_tr (trial s)) with (P p (trial s)) in Hr. change (e_mu_prefac p * t_n (trial s)) with (PlasticModels.Q p (trial s)) in Hr.
  set (QQ := PlasticModels.Q p (trial s)) in *. fold (vol_shift p h) in Hr. set (sf := P p (trial s) + vol_shift p h) in *. set (y := Mfric p * sf + q_cohesion p) in *.
  destruct (Rltb_spec sf (- q_cohesion p / Mfric p)); [lra|]. destruct (Rltb_spec (- q_cohesion p / Mfric p) sf); [|contradiction]. destruct (Rltb_spec y QQ); [|contradiction]. cbn [andb] in Hr.
  destruct (Reqb_spec (visc_exponent p) 1); [contradiction|].
  match type of Hr with context [let (_, _) := ?X in _] => destruct X as (dg, ex) eqn:N end. subst n60.
  pose proof (fmu_pos p El) as Hf.
  eapply newton_run with (f := fun d => flow_rule p (QQ - f_mu_prefac p * d) y (d / dt)) in N.
  - destruct N as (xs & k & A & B & Hd & Hx). exists xs, k. split; [exact A|]. split; [exact B|].
    assert (Eg : g = xs k / dt). { destruct R as (_ & _ & _ & _ & _ & _ & R & _). rewrite <- R, Hh, <- Hr. hist. now rewrite Hd. }
    split; [|rewrite Hex, <- Hr; exact Hx]. rewrite Eg in R. assert (Eq : q' = QQ - f_mu_prefac p * xs k). { destruct R as (_ & -> & _). rewrite EQ, <- FM. fold QQ. field. lra. }
    rewrite <- Eq. exact R.
  - apply Rlt_le, Rdiv_lt_0_compat; lra.
  - intros x Hx. rewrite FM. rewrite (flow_of_code p dt Hdt sa_visc sa_n QQ (fun _ => y) x Hx). reflexivity.
  - intros x Hx. clear R. assert (Dy : forall d, is_derive (fun _ : R => y) d ((fun _ => 0) d)) by (intros d; auto_derive; auto).
    destruct (use_dl p).
    + pose proof (dl_derive p dt Hdt sa_visc sa_n QQ _ _ Dy x Hx) as D. cbv beta in D. unfold dl_diff. rewrite ?nofZ_R. numR.
      match goal with |- is_derive _ _ ?e => match type of D with is_derive _ _ ?e' => replace e with e' by ring end end. exact D.
    + pose proof (perz_derive p dt Hdt sa_visc QQ _ _ Dy x Hx) as D. cbv beta in D. rewrite Rminus_0_r in D. exact D.
Qed.
Print Assumptions C72_drucker_prager.

(** Viscous Cam-Clay: the stress relaxes towards the point (p', q') of the yield surface that MCC
    would return to (C39). *)
Theorem C72_cam_clay : forall G, two_or_three G -> forall svd uabs p dt F tau h o, updated svd uabs p dt F tau h o -> plastic_model p = MCCVisc ->
  let S := trial_stress svd p F in let P := pressure S in let Q := shear (q_prefac p) S in let f := 2 * (q_prefac p)² * mu p in let pc := preconsolidation p in
  0 < cam_clay (Mfric p) (beta p) (pc (h_vol h)) P Q ->
  exists p' q', 0 <= q' /\
  match hardening_law p with
  | ExpoImpl | SinhImpl => implicit_return pc (Mfric p) (beta p) (bulkK p) (h_vol h) P p' q'
  | _ => on_ellipse (Mfric p) (beta p) (pc (h_vol h)) p' q'
  end /\
  (* Duvaut-Lions *)
  (use_dl p = true -> let b := 1 / (1 + visc_time p / dt) in
     pressure (o_tau o) = P - b * (P - p') /\ (0 < Q -> shear (q_prefac p) (o_tau o) = Rabs (Q - b * (Q - q'))) /\
     h_vol (o_h o) = h_vol h - b * (P - p') / bulkK p /\ h_dev (o_h o) = h_dev h + b * (Q - q') / (2 * q_prefac p * mu p) /\ (visc_exponent p <> 1 -> o_exit o = true)) /\
  (* Perzyna *)
  (use_dl p = false -> exists q, q' <= q /\
     pressure (o_tau o) = p' /\ (0 < Q -> shear (q_prefac p) (o_tau o) = q) /\
     h_vol (o_h o) = h_vol h - (P - p') / bulkK p /\ h_dev (o_h o) = h_dev h + (Q - q) / (2 * q_prefac p * mu p) /\
     (q' <= Q -> q <= Q /\
        (visc_exponent p = 1 -> flow_residual_perzyna p q q' ((Q - q) / f / dt) = 0) /\
        (visc_exponent p <> 1 -> let residual := fun d => flow_residual_perzyna p (Q - f * d) q' (d / dt) in
           exists xs k, newton_iterates residual (1/100 * (Q - q') / f) xs /\ iterate_taken residual xs k /\ q = Rmax q' (Q - f * xs k) /\ ((59 <= k)%nat -> o_exit o = true)))).
Proof.
  intros G HG svd uabs p dt F tau h o H Pm S P0 Q0 f pc Y. setup G HG H. subst S P0 Q0 f pc. cbv beta in *. rewrite EP, EQ in *. pose proof Sa as SA. destruct SA.
  assert (FM : f_mu_prefac p = 2 * (q_prefac p)² * mu p) by (rewrite fmu_R, emu_R; unfold Rsqr; ring). rewrite <- FM.
  unfold return_map in Hr. rewrite Pm in Hr. destruct (mcc_res uabs p El dt (trial s) T h Hdt sa_visc r Hr) as (r0 & pc & E & _ & K).
  destruct (mcc_rma_spec uabs p dt El Sa _ _ _ _ _ _ E) as (_ & A). destruct (A Y) as (Pl & X1 & X2). destruct (K Pl) as (_ & Cn & b & qs & Rs & _ & B1 & B2).
  destruct (res_pq p El U _ _ _ _ _ _ _ HU Rs) as (C & D). pose proof (K_pos p El) as HK. pose proof (fmu_pos p El) as Hf. pose proof (emu_pos p El) as He. set (PP := P p (trial s)) in *. set (QQ := PlasticModels.Q p (trial s)) in *.
  assert (Ex : explicit_law p \/ ~ explicit_law p) by (unfold explicit_law; destruct (hardening_law p); tauto).
  assert (Q1 : 0 <= rm_q r0).
  { destruct Ex as [Z|Z]; [destruct (X1 Z) as (_ & ? & _); auto|]. destruct (X2 Z) as (e & [(_ & (_ & ? & _))|(_ & -> & _)]); auto. apply Rmult_le_pos; [lra|apply sqrt_pos]. }
  exists (rm_p r0), (rm_q r0). split; [exact Q1|]. split.
  { assert (IR : ~ explicit_law p -> implicit_return (preconsolidation p) (Mfric p) (beta p) (bulkK p) (h_vol h) PP (rm_p r0) (rm_q r0)).
    { intros N. apply implicit_return_spec; auto; try lra. now apply precons_nonneg. }
    unfold explicit_law in *. destruct (hardening_law p); auto. }
  assert (Hv : h_vol (o_h o) = h_vol h - b * (PP - rm_p r0) / bulkK p) by (rewrite Hh, (rs_vol _ _ _ _ _ _ _ _ Rs); field; lra).
  assert (Hd : h_dev (o_h o) = h_dev h + b * (QQ - qs) / (2 * q_prefac p * mu p)) by (rewrite Hh, (rs_dev _ _ _ _ _ _ _ _ Rs), <- emu_R; reflexivity).
  assert (Hp : pressure (o_tau o) = PP - b * (PP - rm_p r0)) by (rewrite Htau, C; reflexivity).
  assert (Hs : 0 < QQ -> shear (q_prefac p) (o_tau o) = Rabs (QQ - b * (QQ - qs))) by (intros L; rewrite Htau, D; destruct (Rltb_spec 0 QQ); [reflexivity|lra]).
  split.
  - intros Dl. destruct (B1 Pm Dl) as (Eb & -> & Ee). cbv zeta. rewrite <- Eb. split; [exact Hp|]. split; [exact Hs|]. split; [exact Hv|]. split; [exact Hd|].
    intros Nx. rewrite Hex. unfold pl_MCC in Hr. remember 60%nat as n60 eqn:E60 in Hr. clear E60. cbv zeta in Hr.
    change (nmul (nopp (bulkK p)) (t_tr (trial s))) with PP in Hr. change (nmul (e_mu_prefac p) (t_n (trial s))) with QQ in Hr. rewrite E, Pl, Pm, Dl in Hr.
    apply bind_Ok in Hr. destruct Hr as (h2 & _ & Hr). apply Ok_inj in Hr. subst r. cbn [r_exit]. numR. rewrite ?nofZ_R. destruct (Reqb_spec (visc_exponent p) 1); [contradiction|]. apply orb_true_r.
  - intros Dl. destruct (B2 Pm Dl) as (Eb & L1 & L2). rewrite Eb, !Rmult_1_l in *. exists qs. split; [exact L1|]. split; [rewrite Hp; ring|].
    split; [intros L; rewrite (Hs L); replace (QQ - (QQ - qs)) with qs by ring; apply Rabs_pos_eq; lra|]. split; [exact Hv|]. split; [exact Hd|].
    intros Lq. destruct (L2 (Logic.conj Q1 Lq)) as (L3 & L4). split; [exact L3|]. split; [intros Nx; apply L4; exact Nx|].
    intros Nx residual.
    assert (HQ : h_dev (r_h r) = h_dev h + (QQ - qs) / e_mu_prefac p) by (rewrite (rs_dev _ _ _ _ _ _ _ _ Rs); unfold Rdiv; ring).
    unfold pl_MCC in Hr. remember 60%nat as n60 eqn:E60 in Hr. cbv zeta in Hr.
    change (nmul (nopp (bulkK p)) (t_tr (trial s))) with PP in Hr. change (nmul (e_mu_prefac p) (t_n (trial s))) with QQ in Hr. rewrite E, Pl, Pm, Dl in Hr.
    numR. rewrite ?nofZ_R in Hr. numR. destruct (Reqb_spec (visc_exponent p) 1); [contradiction|].
    match type of Hr with context [let (_, _) := (let (_, _) := ?X in _) in _] => destruct X as (dg, ex) eqn:N end. subst n60.
    assert (Eqs : qs = Rmax (rm_q r0) (QQ - f_mu_prefac p * dg) /\ (ex = true -> o_exit o = true)).
    { apply bind_Ok in Hr. destruct Hr as (h2 & Eh & Hr). apply Ok_inj in Hr. set (q1 := Rmax (rm_q r0) (QQ - f_mu_prefac p * dg)) in *. split.
      - assert (Hh2 : h_dev h2 = h_dev h + (QQ - q1) / e_mu_prefac p).
        { clear Hr. destruct (use_mibf p); [|apply Ok_inj in Eh; subst h2; cbn [h_dev set_dg add_dev add_vol]; numR; rewrite cmax_R; fold q1; unfold Rdiv; ring].
          match type of Eh with (bind ?X _) = _ => destruct X as [c| |] end; cbn [bind] in Eh; try discriminate.
          match type of Eh with (if ?c then _ else _) = _ => destruct c end; apply Ok_inj in Eh; subst h2; cbn [h_dev set_dg add_dev add_vol set_muI]; numR; rewrite cmax_R; fold q1; unfold Rdiv; ring. }
        subst r. cbn [r_h] in HQ. rewrite Hh2 in HQ. apply Rplus_eq_reg_l in HQ. apply (f_equal (fun z => z * e_mu_prefac p)) in HQ. unfold Rdiv in HQ. rewrite !Rmult_assoc, Rinv_l in HQ by lra. lra.
      - intros ->. rewrite Hex. subst r. cbn [r_exit]. apply orb_true_r. }
    destruct Eqs as (Eqs & Eex).
    eapply newton_run with (f := residual) in N.
    + destruct N as (xs & k & A1 & A2 & Hdg & Hx). exists xs, k. split; [exact A1|]. split; [exact A2|]. split; [now rewrite <- Hdg|]. intros Lk. apply Eex, Hx, Lk.
    + apply Rmult_le_pos; [lra|apply Rlt_le, Rinv_0_lt_compat; auto].
    + intros x Hx. unfold residual. assert (E1 : x = x / dt * dt) by (field; lra). assert (H1 : 0 <= x / dt) by (apply Rmult_le_pos; auto; apply Rlt_le, Rinv_0_lt_compat; auto).
      symmetry. rewrite E1 at 1. rewrite (perz_R p dt Hdt sa_visc QQ (rm_q r0) (x / dt)) by auto. now rewrite <- E1.
    + intros x Hx. assert (Dy : forall d, is_derive (fun _ : R => rm_q r0) d ((fun _ => 0) d)) by (intros d; auto_derive; auto).
      pose proof (perz_derive p dt Hdt sa_visc QQ _ _ Dy x Hx) as D1. cbv beta in D1. rewrite Rminus_0_r in D1. exact D1.
Qed.
Print Assumptions C72_cam_clay.

(** With exponent 1 the increment is explicit; a return that would raise the shear stress (beyond 1e-14
    times the slope of the flow rule) stops the simulation with an error. *)
Theorem C72_cam_clay_linear_guard : forall G, two_or_three G -> forall svd uabs p dt F tau h o, updated svd uabs p dt F tau h o -> plastic_model p = MCCVisc ->
  let S := trial_stress svd p F in let Q := shear (q_prefac p) S in let f := 2 * (q_prefac p)² * mu p in
  0 < cam_clay (Mfric p) (beta p) (preconsolidation p (h_vol h)) (pressure S) Q -> use_dl p = false -> visc_exponent p = 1 -> 0 < Q ->
  o_exit o = false -> let q := shear (q_prefac p) (o_tau o) in q - Q < (f + q * visc_time p / dt) / 100000000000000.
Proof.
  intros G HG svd uabs p dt F tau h o H Pm S Q0 f Y Dl Nx HQ0 Hex0 q. 
  setup G HG H. subst S Q0 f. cbv beta in *. rewrite EP, EQ in *. pose proof Sa as SA. destruct SA.
  assert (FM : f_mu_prefac p = 2 * (q_prefac p)² * mu p) by (rewrite fmu_R, emu_R; unfold Rsqr; ring). rewrite <- FM.
  unfold return_map in Hr. rewrite Pm in Hr. destruct (mcc_res uabs p El dt (trial s) T h Hdt sa_visc r Hr) as (r0 & pc & E & _ & K).
  destruct (mcc_rma_spec uabs p dt El Sa _ _ _ _ _ _ E) as (_ & A). destruct (A Y) as (Pl & X1 & X2). destruct (K Pl) as (_ & Cn & b & qs & Rs & _ & B1 & B2).
  destruct (res_pq p El U _ _ _ _ _ _ _ HU Rs) as (C & D). pose proof (K_pos p El) as HK. pose proof (fmu_pos p El) as Hf. pose proof (emu_pos p El) as He. set (PP := P p (trial s)) in *. set (QQ := PlasticModels.Q p (trial s)) in *.
  assert (Ex : explicit_law p \/ ~ explicit_law p) by (unfold explicit_law; destruct (hardening_law p); tauto).
  assert (Q1 : 0 <= rm_q r0).
  { destruct Ex as [Z|Z]; [destruct (X1 Z) as (_ & ? & _); auto|]. destruct (X2 Z) as (e & [(_ & (_ & ? & _))|(_ & -> & _)]); auto. apply Rmult_le_pos; [lra|apply sqrt_pos]. }
  destruct (B2 Pm Dl) as (Eb & L1 & L2).
  assert (Hq : q = qs).
  { subst q. rewrite Htau, D. destruct (Rltb_spec 0 QQ); [|lra]. rewrite Eb. replace (QQ - 1 * (QQ - qs)) with qs by ring. apply Rabs_pos_eq. lra. }
  rewrite Hq. assert (Hvd : 0 <= visc_time p / dt) by (apply Rmult_le_pos; [exact sa_visc|apply Rlt_le, Rinv_0_lt_compat, Hdt]).
  assert (Hpos : forall y, 0 <= y -> 0 < f_mu_prefac p + y * visc_time p / dt) by (intros y Hy; unfold Rdiv in *; rewrite Rmult_assoc; nra).
  destruct (Rle_dec (rm_q r0) QQ) as [Lq|Lq].
  { destruct (L2 (Logic.conj Q1 Lq)) as (L3 & _). assert (0 <= qs) by lra. specialize (Hpos qs ltac:(lra)). lra. }
  apply Rnot_le_lt in Lq.
  assert (HQ : h_dev (r_h r) = h_dev h + (QQ - qs) / e_mu_prefac p) by (rewrite (rs_dev _ _ _ _ _ _ _ _ Rs), Eb; unfold Rdiv; ring).
  assert (Xr : r_exit r = false) by congruence.
  unfold pl_MCC in Hr. remember 60%nat as n60 eqn:E60 in Hr. cbv zeta in Hr.
  change (nmul (nopp (bulkK p)) (t_tr (trial s))) with PP in Hr. change (nmul (e_mu_prefac p) (t_n (trial s))) with QQ in Hr. rewrite E, Pl, Pm, Dl in Hr.
  numR. rewrite ?nofZ_R in Hr. numR. destruct (Reqb_spec (visc_exponent p) 1); [|contradiction].
  set (d0 := (QQ - rm_q r0) / (f_mu_prefac p + rm_q r0 * visc_time p / dt)) in *.
  assert (D0 : d0 < 0) by (unfold d0; pose proof (Rinv_0_lt_compat _ (Hpos _ Q1)); unfold Rdiv in *; nra).
  destruct (Rltb_spec d0 0); [|lra].
  destruct (Rltb_spec (- e14) d0) as [B|B].
  - cbv iota beta in Hr. rewrite (cmax_R (rm_q r0)), Rmult_0_r, Rminus_0_r, (Rmax_left (rm_q r0) QQ) in Hr by lra.
    apply bind_Ok in Hr. destruct Hr as (h2 & Eh & Hr). apply Ok_inj in Hr.
    assert (Hh2 : h_dev h2 = h_dev h + (QQ - rm_q r0) / e_mu_prefac p).
    { clear Hr. destruct (use_mibf p); [|apply Ok_inj in Eh; subst h2; cbn [h_dev set_dg add_dev add_vol]; numR; unfold Rdiv; ring].
      match type of Eh with (bind ?X _) = _ => destruct X as [c| |] end; cbn [bind] in Eh; try discriminate.
      match type of Eh with (if ?c then _ else _) = _ => destruct c end; apply Ok_inj in Eh; subst h2; cbn [h_dev set_dg add_dev add_vol set_muI]; numR; unfold Rdiv; ring. }
    assert (Eq : qs = rm_q r0).
    { subst r. cbn [r_h] in HQ. rewrite Hh2 in HQ. apply Rplus_eq_reg_l in HQ. apply (f_equal (fun z => z * e_mu_prefac p)) in HQ. unfold Rdiv in HQ. rewrite !Rmult_assoc, Rinv_l in HQ by lra. lra. }
    rewrite Eq. specialize (Hpos _ Q1). set (X := f_mu_prefac p + rm_q r0 * visc_time p / dt) in *. clearbody X. apply (Rmult_lt_compat_r _ _ _ Hpos) in B. unfold d0 in B.
    replace ((QQ - rm_q r0) / X * X) with (QQ - rm_q r0) in B by (field; lra).
    unfold e14 in B. rewrite ?nofQ_R in B. numR. lra.
  - cbv iota beta in Hr. apply bind_Ok in Hr. destruct Hr as (h2 & Eh & Hr). apply Ok_inj in Hr. exfalso. rewrite <- Hr in Xr. cbn [r_exit] in Xr. rewrite orb_true_r in Xr. discriminate.
Qed.
Print Assumptions C72_cam_clay_linear_guard.
(** A trial shear stress above the top of the ellipse never stops it (explicit hardening laws). *)
Theorem C72_cam_clay_linear_runs : forall G, two_or_three G -> forall svd uabs p dt F tau h o, updated svd uabs p dt F tau h o -> plastic_model p = MCCVisc ->
  (hardening_law p = NoHard \/ hardening_law p = ExpoExpl \/ hardening_law p = SinhExpl) ->
  let S := trial_stress svd p F in let Q := shear (q_prefac p) S in let pc := preconsolidation p (h_vol h) in
  0 < cam_clay (Mfric p) (beta p) pc (pressure S) Q -> use_dl p = false -> visc_exponent p = 1 ->
  Mfric p * ((1 + beta p) * pc / 2) <= Q -> o_exit o = false.
Proof.
  intros G HG svd uabs p dt F tau h o H Pm Hl S Q0 pc0 Y Dl Nx HQ0. setup G HG H. subst S Q0 pc0. cbv beta in *. rewrite EP, EQ in *. pose proof Sa as SA. destruct SA.
  unfold return_map in Hr. rewrite Pm in Hr. destruct (mcc_res uabs p El dt (trial s) T h Hdt sa_visc r Hr) as (r0 & pc & E & _ & K).
  destruct (mcc_rma_spec uabs p dt El Sa _ _ _ _ _ _ E) as (_ & A). destruct (A Y) as (Pl & X1 & _). destruct (K Pl) as (_ & Cn & b & qs & Rs & _ & B1 & B2).
  destruct (B2 Pm Dl) as (Eb & L1 & L2). destruct (X1 ltac:(unfold explicit_law; destruct Hl as [-> | [-> | ->]]; exact I)) as (_ & Q1 & On).
  assert (Ex0 : rm_exit r0 = false).
  { unfold mcc_rma in E. unfold MCCRMAExplicit in E. destruct Hl as [Z | [Z | Z]]; rewrite Z in E; apply some_pair in E; destruct E as (<- & _);
    (match goal with |- context [nltb ?a ?b] => destruct (nltb a b) | _ => idtac end; [destruct (mcc_expl_loop _ _ _ _ _ _ _ _ _ _ _ _); reflexivity|reflexivity]). }
  assert (Top : rm_q r0 <= PlasticModels.Q p (trial s)).
  { eapply Rle_trans; [|exact HQ0]. set (c := preconsolidation p (h_vol h)) in *. assert (Hc : 0 <= c) by (now apply precons_nonneg). unfold cam_clay in On.
    apply Rsqr_incr_0_var; [|apply Rmult_le_pos; [lra|]; unfold Rdiv; apply Rmult_le_pos; [apply Rmult_le_pos; lra|lra]].
    unfold Rsqr in *. pose proof (Rle_0_sqr (rm_p r0 - c * (1 - beta p) / 2)) as Sq. unfold Rsqr in Sq. 
    assert (M2 : 0 <= Mfric p * Mfric p) by nra.
    assert (Eq : rm_q r0 * rm_q r0 = Mfric p * Mfric p * ((1 + beta p) * c / 2 * ((1 + beta p) * c / 2) - (rm_p r0 - c * (1 - beta p) / 2) * (rm_p r0 - c * (1 - beta p) / 2))) by nra.
    rewrite Eq. nra. }
  rewrite Hex. destruct (L2 (Logic.conj Q1 Top)) as (_ & L4). destruct (L4 Nx) as (-> & _). exact Ex0.
Qed.
Print Assumptions C72_cam_clay_linear_runs.

(** Non-vacuity: materials with exponent 2; the clay for both flow rules and every hardening law. *)
From Verif Require Import SvdExist ExStep ExMech ExPlastic.
Example C72_ex : forall uabs, (let p := pl_par VMVisc NoHard 1 0 0 2 false false in exists o, updated svdx uabs p 1 (stretch 1 0) mzero h0 o /\ visc_exponent p <> 1 /\
    p_min p * exp (- xi p * h_vol h0) <= pressure (trial_stress svdx p (stretch 1 0)) /\ vm_yield p (h_dev h0) < shear (q_prefac p) (trial_stress svdx p (stretch 1 0))) /\
  (let p := pl_par DPVisc NoHard (1/10) 0 0 2 false false in exists o, updated svdx uabs p 1 (stretch 0 (-1)) mzero h0 o /\ visc_exponent p <> 1 /\
    let shifted := pressure (trial_stress svdx p (stretch 0 (-1))) + vol_shift p h0 in
    - q_cohesion p / Mfric p < shifted /\ Mfric p * shifted + q_cohesion p < shear (q_prefac p) (trial_stress svdx p (stretch 0 (-1)))) /\
  (forall hl n dl, 0 < n -> let p := pl_par MCCVisc hl 1 0 0 n dl false in exists o, updated svdx uabs p 1 (stretch 1 0) mzero h0 o /\
    let S := trial_stress svdx p (stretch 1 0) in 0 < cam_clay (Mfric p) (beta p) (preconsolidation p (h_vol h0)) (pressure S) (shear (q_prefac p) S)).
Proof.
  intros uabs. destruct (C38_ex uabs 2 ltac:(lra)) as ((o1 & A1 & A2) & (o2 & B1 & B2)). split; [|split].
  - exists o1. split; [exact A1|]. split; [cbn; lra|exact A2].
  - exists o2. split; [exact B1|]. split; [cbn; lra|exact B2].
  - intros hl n dl Hn p. destruct (pl_updated uabs MCCVisc hl 1 0 0 n dl false 1 0 h0) as (o & H); try lra; [fin|]. exists o. split; [exact H|].
    destruct (stretch_q MCCVisc hl 1 0 0 n dl false 1 0) as (A & B); try lra. cbv zeta. change (h_vol h0) with 0.
    assert (Pc : preconsolidation p 0 = 1000). { rewrite <- (clay_precons MCCVisc hl). unfold p, clay_law, preconsolidation. destruct hl; reflexivity. }
    rewrite Pc. change (pl_par MCCVisc hl 1 0 0 n dl false) with p in A, B. rewrite A. unfold cam_clay. change (Mfric p) with 1. change (beta p) with 0. unfold Rsqr. nra.
Qed.
(** A clay of exponent 1 sheared beyond the top of its ellipse. *)
Example C72_linear_ex : forall uabs, let p := pl_par MCCVisc NoHard 1 0 0 1 false false in exists o, updated svdx uabs p 1 (stretch 1 (-1)) mzero h0 o /\
  (let S := trial_stress svdx p (stretch 1 (-1)) in let Q := shear (q_prefac p) S in let pc := preconsolidation p (h_vol h0) in
   0 < cam_clay (Mfric p) (beta p) pc (pressure S) Q /\ 0 < Q /\ Mfric p * ((1 + beta p) * pc / 2) <= Q) /\ o_exit o = false.
Proof.
  intros uabs p. destruct (pl_updated uabs MCCVisc NoHard 1 0 0 1 false false 1 (-1) h0) as (o & H); try lra; [fin|]. exists o. split; [exact H|].
  destruct (stretch_q MCCVisc NoHard 1 0 0 1 false false 1 (-1)) as (A & B); try lra. change (pl_par MCCVisc NoHard 1 0 0 1 false false) with p in A, B, H.
  assert (Pc : preconsolidation p (h_vol h0) = 1000) by reflexivity.
  assert (C : let S := trial_stress svdx p (stretch 1 (-1)) in let Q := shear (q_prefac p) S in let pc := preconsolidation p (h_vol h0) in
   0 < cam_clay (Mfric p) (beta p) pc (pressure S) Q /\ 0 < Q /\ Mfric p * ((1 + beta p) * pc / 2) <= Q).
  { cbv zeta. rewrite Pc, A. unfold cam_clay. change (Mfric p) with 1. change (beta p) with 0. unfold Rsqr. split; [nra|]. lra. }
  split; [exact C|]. destruct C as (C1 & _ & C3). apply (C72_cam_clay_linear_runs _ (or_introl eq_refl) svdx uabs p 1 (stretch 1 (-1)) mzero h0 o H eq_refl (or_introl eq_refl) C1 eq_refl eq_refl C3).
Qed.
