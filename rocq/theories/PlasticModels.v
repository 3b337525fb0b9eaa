(** * PlasticModels: what each return mapping does, in pressure, shear stress and history. *)
From Coq Require Import Reals ZArith Lra Lia List Bool.
From Verif Require Import Num NumR Tools Lin Types Transfer Rma Plastic Spec SpecPlastic LinProofs PlasticProofs.
Import ListNotations.
Local Open Scope R_scope.

Lemma exp_mono : forall a b, a <= b -> exp a <= exp b.
Proof. intros a b H. destruct (Rle_lt_or_eq_dec _ _ H) as [L| ->]; [left; now apply exp_increasing|lra]. Qed.

Lemma Ok_inj : forall X (a b : X), Ok a = Ok b -> a = b.
Proof. congruence. Qed.
Ltac inj2 H := apply pair_equal_spec in H; destruct H as (<- & <-).
Ltac inj3 H := apply pair_equal_spec in H; destruct H as (H & <-); inj2 H.

Section Models.
  Context {G : Geo R} {GL : GeoLaws G}.
  Variable uabs : R -> R.
  Variable p : Par R.
  Hypothesis El : elastic p.
  Variable dt : R.
  Variable t : Tr R.
  Hypothesis T : TrOk t.
  Variable h : Hist R.

  (** Trial pressure and shear stress. *)
  Definition P : R := - bulkK p * t_tr t.
  Definition Q : R := e_mu_prefac p * t_n t.
  Lemma Q_nonneg : 0 <= Q.
  Proof. unfold Q. apply Rmult_le_pos; [pose proof (emu_pos p El); lra|now apply t_n_nonneg]. Qed.

  (** Pressure [p'] and shear stress [q'] of the result, and the growth of the plastic strains. *)
  Record Res (r : MR R) (p' q' dd dv : R) : Prop := {
    rs_p : - bulkK p * vsum (r_hencky r) = p';
    rs_q : e_mu_prefac p * vnorm (dev (r_hencky r)) = q';
    rs_keep : r_upd r = Keep -> r_hencky r = t_e t;
    rs_dev : h_dev (r_h r) = h_dev h + dd;
    rs_vol : h_vol (r_h r) = h_vol h + dv }.

  Lemma res_eq : forall r p' q' dd dv q'' dd'', Res r p' q' dd dv -> q' = q'' -> dd = dd'' -> Res r p' q'' dd'' dv.
  Proof. intros; subst; auto. Qed.
  Lemma combo_res : forall r a b, r_hencky r = combo t a b -> (t_n t = 0 -> a = 0) ->
    - bulkK p * vsum (r_hencky r) = - bulkK p * b /\ e_mu_prefac p * vnorm (dev (r_hencky r)) = e_mu_prefac p * Rabs a.
  Proof.
    intros r a b E Z. rewrite E, combo_sum, combo_dev by auto. split; auto. destruct (Rltb_spec 0 (t_n t)) as [L|L]; auto.
    rewrite Z, Rabs_R0; auto. pose proof (t_n_nonneg t T). lra.
  Qed.
  Lemma res_keep : forall r, r_hencky r = t_e t -> h_dev (r_h r) = h_dev h -> h_vol (r_h r) = h_vol h -> Res r P Q 0 0.
  Proof.
    intros r E D V. rewrite (e_combo t T) in E. destruct (combo_res _ _ _ E ltac:(auto)) as (A & B).
    rewrite <- (e_combo t T) in E. split; auto; try lra. rewrite B, Rabs_pos_eq; [reflexivity|now apply t_n_nonneg].
  Qed.
  Lemma res_back : forall r dg, r_hencky r = shear_back p t dg -> r_upd r = Rebuild -> (t_n t = 0 -> dg = 0) ->
    h_dev (r_h r) = h_dev h + q_prefac p * dg -> h_vol (r_h r) = h_vol h ->
    Res r P (Rabs (Q - f_mu_prefac p * dg)) (q_prefac p * dg) 0.
  Proof.
    intros r dg E U Z D V. rewrite (back_combo p El) in E by auto.
    destruct (combo_res _ _ _ E) as (A & B); [intros N; rewrite Z, N by auto; ring|]. split; auto; try lra; [|congruence].
    rewrite B. unfold Q. rewrite (fmu_R p). rewrite <- (Rabs_pos_eq (e_mu_prefac p)) at 1 by (pose proof (emu_pos p El); lra). rewrite <- Rabs_mult. f_equal. ring.
  Qed.
  Lemma res_iso : forall r pp, r_hencky r = iso p pp -> r_upd r = Rebuild ->
    h_dev (r_h r) = h_dev h + Q / e_mu_prefac p -> h_vol (r_h r) = h_vol h + (pp - P) / bulkK p ->
    Res r pp 0 (Q / e_mu_prefac p) ((pp - P) / bulkK p).
  Proof.
    intros r pp E U D V. rewrite (iso_combo p El t) in E by auto. destruct (combo_res _ _ _ E ltac:(auto)) as (A & B). split; auto; [| |congruence].
    - rewrite A. pose proof (K_pos p El). field. lra.
    - rewrite B, Rabs_R0. ring.
  Qed.

  Ltac hist := cbn [h_dev h_vol h_prad h_dg h_visc h_muI add_dev add_vol set_prad set_dg set_visc set_muI r_h r_hencky r_upd r_cnt r_exit]; numR.
  Tactic Notation "start" reference(d) := unfold d; rewrite ?nofZ_R; numR; rewrite ?(dpre_inv p El).

  (** ** VM *)
  Lemma vm_res : 0 <= q_max p -> Res (pl_VM p dt t h) P (Rmin Q (q_max p)) ((Q - Rmin Q (q_max p)) / e_mu_prefac p) 0 /\
    (Q <= q_max p -> pl_VM p dt t h = mkMR (t_e t) Keep h 0 false) /\
    (q_max p < Q -> r_upd (pl_VM p dt t h) = Rebuild /\ r_cnt (pl_VM p dt t h) = 1%nat /\ h_dg (r_h (pl_VM p dt t h)) = (Q - q_max p) / f_mu_prefac p / dt).
  Proof.
    intros Hq. pose proof (emu_pos p El) as He. pose proof (t_n_nonneg t T) as Hn. destruct El as (_ & _ & Hc).
    start pl_VM. replace (t_n t - q_max p / e_mu_prefac p) with ((Q - q_max p) / e_mu_prefac p) by (unfold Q; field; lra).
    destruct (Rltb_spec 0 ((Q - q_max p) / e_mu_prefac p)) as [L|L].
    - assert (q_max p < Q).
      { apply (Rmult_lt_compat_r (e_mu_prefac p)) in L; auto. unfold Rdiv in L. rewrite Rmult_assoc, Rinv_l in L; lra. }
      rewrite Rmin_right by lra. split; [|split; [lra|repeat split]].
      + edestruct (combo_res (mkMR (vsub (t_e t) (lscale ((Q - q_max p) / e_mu_prefac p) (t_dir t))) Rebuild h 1 false) (q_max p / e_mu_prefac p) (t_tr t)) as (A & B); hist.
        * rewrite (e_combo t T). unfold combo. apply vext. intros k Hk. autorewrite with geo. unfold Q. field. pose proof dim_R_pos. split; lra.
        * intros N. unfold Q in H. rewrite N in H. lra.
        * cbn [r_hencky] in A, B. split; hist; try discriminate; auto; try lra. rewrite B, Rabs_pos_eq; [field; lra|]. apply Rmult_le_pos; auto. apply Rlt_le, Rinv_0_lt_compat. auto.
      + hist. unfold d_prefac. rewrite nofZ_R. numR. rewrite (fmu_R p). unfold Rdiv. rewrite Rinv_mult by lra. ring.
    - assert (Q <= q_max p).
      { destruct (Rle_lt_dec Q (q_max p)); auto. exfalso. apply L. rpos. }
      rewrite Rmin_left by lra. split; [|split; [auto|lra]].
      replace ((Q - Q) / e_mu_prefac p) with 0 by (field; lra). apply res_keep; reflexivity.
  Qed.

  (** ** DP *)
  Definition dpy : R := Mfric p * P + q_cohesion p.
  Lemma dp_res : 0 < Mfric p ->
    (dpy < 1/10000000000 -> Res (pl_DP p dt t h) (- q_cohesion p / Mfric p) 0 (Q / e_mu_prefac p) ((- q_cohesion p / Mfric p - P) / bulkK p) /\
        r_upd (pl_DP p dt t h) = Rebuild /\ r_cnt (pl_DP p dt t h) = 1%nat) /\
    (1/10000000000 <= dpy -> Res (pl_DP p dt t h) P (Rmin Q dpy) ((Q - Rmin Q dpy) / e_mu_prefac p) 0 /\
        (Q <= dpy -> pl_DP p dt t h = mkMR (t_e t) Keep h 0 false) /\
        (dpy < Q -> r_upd (pl_DP p dt t h) = Rebuild /\ r_cnt (pl_DP p dt t h) = 1%nat /\ h_dg (r_h (pl_DP p dt t h)) = (Q - dpy) / f_mu_prefac p / dt)).
  Proof.
    intros HM. pose proof (emu_pos p El) as He. pose proof (t_n_nonneg t T) as Hn. pose proof (fmu_pos p El) as Hf. pose proof (dpre_pos p El) as Hd.
    pose proof (fmu_R p) as FE. assert (DI : q_prefac p = / d_prefac p) by (rewrite <- (dpre_inv p El); unfold Rdiv; ring).
    start pl_DP. change (- bulkK p * t_tr t) with P. fold dpy. unfold e10. numR.
    destruct (Rltb_spec dpy (1/10000000000)) as [L|L]; (split; [|intros]; try lra; try (intros; lra)).
    - intros _. split; [|split; reflexivity]. apply res_iso; hist; auto. unfold Q. rewrite DI. field. lra.
    - set (dg := d_prefac p * (t_n t - dpy / e_mu_prefac p)).
      assert (Dg : dg = (Q - dpy) / f_mu_prefac p).
      { unfold dg, Q. rewrite FE, DI. field. lra. }
      rewrite Dg. destruct (Rltb_spec 0 ((Q - dpy) / f_mu_prefac p)) as [M|M].
      + assert (dpy < Q).
        { apply (Rmult_lt_compat_r (f_mu_prefac p)) in M; auto. unfold Rdiv in M. rewrite Rmult_assoc, Rinv_l in M; lra. }
        rewrite Rmin_right by lra. split; [|split; [lra|repeat split]].
        replace dpy with (Rabs (Q - f_mu_prefac p * ((Q - dpy) / f_mu_prefac p))) at 4.
        2: { replace (Q - f_mu_prefac p * ((Q - dpy) / f_mu_prefac p)) with dpy by (field; lra). apply Rabs_pos_eq. lra. }
        replace ((Q - dpy) / e_mu_prefac p) with (q_prefac p * ((Q - dpy) / f_mu_prefac p)).
        2: { rewrite FE, DI. field. split; lra. }
        apply res_back; hist; auto. intros N. exfalso. unfold Q in H0. rewrite N in H0. lra.
      + assert (Q <= dpy).
        { destruct (Rle_lt_dec Q dpy); auto. exfalso. apply M. rpos. }
        rewrite Rmin_left by lra. split; [|split; [auto|lra]].
        replace ((Q - Q) / e_mu_prefac p) with 0 by (field; lra). apply res_keep; reflexivity.
  Qed.

  (** ** DPSoft *)
  Definition sh : R := vol_shift p h.
  Definition tip0 : R := soft_tip p (h_dev h).
  Definition sy : R := Mfric p * (P + sh - tip0).
  Definition tip1 : R := soft_tip p (h_dev h + (Q - sy) / e_mu_prefac p).
  Definition sy1 : R := Mfric p * (P + sh - tip1).
  Lemma dps_res : 0 < Mfric p -> let r := pl_DPSoft p dt t h in
    (P + sh <= tip0 -> Res r tip0 0 (Q / e_mu_prefac p) ((tip0 - P) / bulkK p) /\ r_upd r = Rebuild /\ r_cnt r = 1%nat /\
       h_prad (r_h r) = (if use_pradhana p then h_prad h + (tip0 - P) / bulkK p else h_prad h)) /\
    (tip0 < P + sh -> Q <= sy -> r = mkMR (t_e t) Keep (set_dg (if use_pradhana p then set_prad h 0 else h) 0) 0 false) /\
    (tip0 < P + sh -> sy < Q -> P + sh < tip1 -> Res r tip1 0 (Q / e_mu_prefac p) ((tip1 - P) / bulkK p) /\ r_upd r = Rebuild /\ r_cnt r = 1%nat /\
       h_prad (r_h r) = (if use_pradhana p then h_prad h + (tip1 - P) / bulkK p else h_prad h)) /\
    (tip0 < P + sh -> sy < Q -> tip1 <= P + sh -> Res r P sy1 ((Q - sy1) / e_mu_prefac p) 0 /\ r_upd r = Rebuild /\ r_cnt r = 1%nat /\
       h_prad (r_h r) = (if use_pradhana p then 0 else h_prad h)).
  Proof.
    intros HM. pose proof (emu_pos p El) as He. pose proof (t_n_nonneg t T) as Hn. pose proof (fmu_pos p El) as Hf. pose proof (dpre_pos p El) as Hd.
    pose proof (fmu_R p) as FE. assert (DI : q_prefac p = / d_prefac p) by (rewrite <- (dpre_inv p El); unfold Rdiv; ring).
    assert (Hs : (if use_pradhana p then - bulkK p * h_prad h else 0) = sh) by reflexivity.
    start pl_DPSoft. change (- bulkK p * t_tr t) with P. change (e_mu_prefac p * t_n t) with Q. rewrite Hs.
    change (- q_cohesion p / Mfric p * exp (- xi p * h_dev h)) with tip0.
    assert (Y : Mfric p * (P + sh) + - tip0 * Mfric p = sy) by (unfold sy; ring). rewrite Y.
    assert (N : h_dev h + (t_n t - sy / e_mu_prefac p) = h_dev h + (Q - sy) / e_mu_prefac p) by (unfold Q; field; lra). rewrite N.
    change (- q_cohesion p / Mfric p * exp (- xi p * (h_dev h + (Q - sy) / e_mu_prefac p))) with tip1.
    assert (Y1 : Mfric p * (P + sh) + - tip1 * Mfric p = sy1) by (unfold sy1; ring). rewrite Y1.
    cbv zeta. destruct (Rleb_spec (P + sh) tip0) as [L|L].
    - split; [intros _|repeat split; intros; lra]. split; [|repeat split; hist; destruct (use_pradhana p); reflexivity].
      apply res_iso; hist; auto; destruct (use_pradhana p); hist; auto; unfold Q; rewrite DI; field; lra.
    - split; [intros; lra|]. destruct (Rltb_spec tip0 (P + sh)) as [L2|L2]; [|lra]. cbn [andb].
      destruct (Rleb_spec Q sy) as [L3|L3]; [repeat split; intros; try lra; destruct (use_pradhana p); reflexivity|].
      split; [intros; lra|]. destruct (Rltb_spec sy Q) as [L4|L4]; [|lra]. destruct (Rltb_spec (P + sh) tip1) as [L5|L5].
      + split; [intros _ _ _|intros; lra]. split; [|repeat split; hist; destruct (use_pradhana p); reflexivity].
        apply res_iso; hist; auto; destruct (use_pradhana p); hist; auto; unfold Q; rewrite DI; field; lra.
      + split; [intros; lra|]. intros _ _ _. split; [|repeat split; hist; destruct (use_pradhana p); reflexivity].
        set (dg := d_prefac p * (t_n t - sy1 / e_mu_prefac p)).
        assert (Dg : dg = (Q - sy1) / f_mu_prefac p) by (unfold dg, Q; rewrite FE, DI; field; lra). rewrite Dg.
        assert (S1 : 0 <= sy1) by (unfold sy1; apply Rmult_le_pos; lra).
        assert (S0 : 0 < sy) by (unfold sy; apply Rmult_lt_0_compat; lra).
        apply (res_eq _ _ (Rabs (Q - f_mu_prefac p * ((Q - sy1) / f_mu_prefac p))) (q_prefac p * ((Q - sy1) / f_mu_prefac p))).
        2: { replace (Q - f_mu_prefac p * ((Q - sy1) / f_mu_prefac p)) with sy1 by (field; lra). apply Rabs_pos_eq. lra. }
        2: { rewrite FE, DI; field; split; lra. }
        apply res_back; hist; auto; try (destruct (use_pradhana p); hist; auto; fail). intros Z. exfalso. unfold Q in L4. rewrite Z in L4. lra.
  Qed.
  Lemma tip_mono : 0 < Mfric p -> 0 <= q_cohesion p -> 0 <= xi p -> forall a b, a <= b -> soft_tip p a <= soft_tip p b <= 0.
  Proof.
    intros HM Hc Hx a b H. unfold soft_tip. assert (0 <= q_cohesion p / Mfric p) by (apply Rmult_le_pos; auto; apply Rlt_le, Rinv_0_lt_compat; auto).
    assert (exp (- xi p * b) <= exp (- xi p * a)) by (apply exp_mono; nra). pose proof (exp_pos (- xi p * b)).
    replace (- q_cohesion p / Mfric p) with (- (q_cohesion p / Mfric p)) by (unfold Rdiv; ring). split; nra.
  Qed.

  (** ** The scalar Newton loop *)
  Lemma newton_spec : forall n res resd dg0 ex0 dg ex, newton n res resd dg0 ex0 = (dg, ex) -> 0 <= dg0 ->
    0 <= dg /\ (ex = false -> (n = 0%nat /\ ex0 = false) \/ Rabs (res dg) < 1/100).
  Proof.
    induction n as [|m IH]; intros res resd dg0 ex0 dg ex H H0; cbn [newton] in H.
    - injection H as <- <-. auto.
    - numR. destruct (Rltb_spec (Rabs (res dg0)) (1/100)) as [L|L].
      + injection H as <- <-. auto.
      + match type of H with newton m res resd ?d ?e = _ => set (d1 := d) in H; set (e1 := e) in H end.
        assert (D : 0 <= d1).
        { unfold d1. rewrite ?nofZ_R. match goal with |- 0 <= if Rltb ?a ?b then _ else _ => destruct (Rltb_spec a b) end; [unfold e10; numR; lra|lra]. }
        destruct (IH _ _ _ _ _ _ H D) as (A & B). split; auto. intros E. right. destruct (B E) as [(Z & F)|Z]; auto.
        exfalso. unfold e1 in F. subst m. discriminate.
  Qed.

  (** ** Viscous flow rules *)
  Hypothesis Hdt : 0 < dt.
  Hypothesis Hv : 0 <= visc_time p.
  (** Residual of the flow rule of SpecPlastic at the plastic multiplier [dg]. *)
  Lemma pow_R : forall x y, 0 < x -> Rpow' x y = Rpower x y.
  Proof. intros x y H. unfold Rpow', Rpower. destruct (Req_EM_T x 0); auto; lra. Qed.
  Lemma perz_R : forall q y g, 0 <= g -> perz_res p dt q y (g * dt) = flow_residual_perzyna p (q - f_mu_prefac p * (g * dt)) y g.
  Proof.
    intros q y g Hg. unfold perz_res, flow_residual_perzyna. numR. assert (0 <= visc_time p * g) by (apply Rmult_le_pos; auto).
    replace (dt / (visc_time p * (g * dt) + dt)) with (/ (1 + visc_time p * g)).
    2: { replace (visc_time p * (g * dt) + dt) with (dt * (1 + visc_time p * g)) by ring. field. lra. }
    rewrite pow_R by (apply Rinv_0_lt_compat; lra). unfold Rpower at 1. rewrite ln_Rinv by lra. replace (visc_exponent p * - ln (1 + visc_time p * g)) with (- (visc_exponent p * ln (1 + visc_time p * g))) by ring.
    rewrite exp_Ropp. unfold Rdiv, Rpower. reflexivity.
  Qed.
  Lemma dl_R : forall q y g, 0 <= g -> 0 < visc_exponent p -> dl_res p dt q y (g * dt) = flow_residual_dl p (q - f_mu_prefac p * (g * dt)) y g.
  Proof.
    intros q y g Hg Hn. unfold dl_res, flow_residual_dl. numR. replace (visc_time p / dt * (g * dt)) with (visc_time p * g) by (field; lra).
    replace (2 * (q_prefac p)² * mu p) with (f_mu_prefac p) by (rewrite fmu_R, emu_R; unfold Rsqr; ring). unfold Rpow', power, Rpower. destruct (Req_EM_T (visc_exponent p) 0); [lra|]. destruct (Req_EM_T (visc_time p * g) 0); ring.
  Qed.
  Definition flow_residual : R -> R -> R -> R := if use_dl p then flow_residual_dl p else flow_residual_perzyna p.
  Lemma closed_R : forall q y, 0 <= y -> y < q -> visc_exponent p = 1 ->
    let dg := visc_closed p dt q y in 0 < dg /\ flow_residual (q - f_mu_prefac p * dg) y (dg / dt) = 0 /\ y <= q - f_mu_prefac p * dg < q.
  Proof.
    intros q y Hy Hq Hn. pose proof (fmu_pos p El) as Hf. unfold visc_closed, flow_residual. rewrite ?nofZ_R. numR. cbv zeta. destruct (use_dl p).
    - assert (V : 0 <= visc_time p / dt) by (apply Rmult_le_pos; auto; apply Rlt_le, Rinv_0_lt_compat; auto).
      assert (D : 0 < f_mu_prefac p * (1 + visc_time p / dt)) by (apply Rmult_lt_0_compat; lra).
      set (dg := (q - y) / (f_mu_prefac p * (1 + visc_time p / dt))). assert (0 < dg) by (apply Rdiv_lt_0_compat; lra).
      assert (E : q - f_mu_prefac p * dg = y + f_mu_prefac p * (visc_time p / dt * dg)) by (unfold dg; field; split; nra).
      split; auto. split.
      + unfold flow_residual_dl. replace (2 * (q_prefac p)² * mu p) with (f_mu_prefac p) by (rewrite fmu_R, emu_R; unfold Rsqr; ring). rewrite Hn. replace (power (visc_time p * (dg / dt)) 1) with (visc_time p / dt * dg); [rewrite E; ring|].
        replace (visc_time p * (dg / dt)) with (visc_time p / dt * dg) by (field; lra).
        unfold power. destruct (Req_EM_T (visc_time p / dt * dg) 0); [auto|]. rewrite Rpower_1; auto. assert (0 <= visc_time p / dt * dg) by nra. lra.
      + assert (0 <= visc_time p / dt * dg) by nra. split; [rewrite E; nra|nra].
    - assert (V : 0 <= y * visc_time p / dt) by (apply Rmult_le_pos; [nra|apply Rlt_le, Rinv_0_lt_compat; auto]).
      set (dg := (q - y) / (f_mu_prefac p + y * visc_time p / dt)). assert (0 < dg) by (apply Rdiv_lt_0_compat; lra).
      assert (E : q - f_mu_prefac p * dg = y * (1 + visc_time p * (dg / dt))) by (unfold dg; field; split; nra).
      assert (W : 0 <= visc_time p * (dg / dt)) by (apply Rmult_le_pos; auto; apply Rlt_le, Rdiv_lt_0_compat; auto).
      split; auto. split.
      + unfold flow_residual_perzyna. rewrite Hn, Rpower_1, E by lra. set (w := visc_time p * (dg / dt)) in *. field. lra.
      + split; [rewrite E; nra|nra].
  Qed.

  Lemma newton_flow : forall n q (yf resd : R -> R) g0 dg ex, n <> 0%nat ->
    newton n (fun dg => if use_dl p then dl_res p dt q (yf dg) dg else perz_res p dt q (yf dg) dg) resd g0 false = (dg, ex) -> 0 <= g0 ->
    0 <= dg /\ (0 < visc_exponent p -> ex = false -> Rabs (flow_residual (q - f_mu_prefac p * dg) (yf dg) (dg / dt)) < 1/100).
  Proof.
    intros n q yf resd g0 dg ex Hn H H0. destruct (newton_spec _ _ _ _ _ _ _ H H0) as (A & B). split; auto.
    intros Hv1 Ex. destruct (B Ex) as [(X & _)|X]; [contradiction|]. clear B H.
    assert (E : exists g, 0 <= g /\ dg = g * dt).
    { exists (dg / dt). split; [apply Rmult_le_pos; auto; apply Rlt_le, Rinv_0_lt_compat; auto|field; lra]. }
    destruct E as (g & G0 & ->). replace (g * dt / dt) with g by (field; lra). unfold flow_residual.
    destruct (use_dl p); [rewrite dl_R in X by auto|rewrite perz_R in X by auto]; exact X.
  Qed.

  (** ** VMVisc *)
  Definition vy : R := vm_yield p (h_dev h).
  Definition cap : R := p_min p * exp (- xi p * h_vol h).
  Lemma vy_nonneg : 0 <= q_min p <= q_max p -> forall ed, 0 <= vm_yield p ed.
  Proof. intros H ed. unfold vm_yield. pose proof (exp_pos (- xi p * ed)). assert (0 <= (q_max p - q_min p) * exp (- xi p * ed)) by (apply Rmult_le_pos; lra). lra. Qed.
  Lemma vmv_res : 0 <= q_min p <= q_max p -> forall r, r = pl_VMVisc p dt t h ->
    (P < cap -> r_hencky r = t_e t /\ r_upd r = Rotation /\ r_cnt r = 0%nat /\ r_exit r = false /\
       h_dev (r_h r) = h_dev h + Q / e_mu_prefac p /\ h_vol (r_h r) = h_vol h - P / bulkK p) /\
    (cap <= P -> Q <= vy -> r = mkMR (t_e t) Keep h 0 false) /\
    (cap <= P -> vy < Q -> exists g, 0 <= g /\ Res r P (Rabs (Q - f_mu_prefac p * (g * dt))) (q_prefac p * (g * dt)) 0 /\
       r_upd r = Rebuild /\ r_cnt r = 1%nat /\ h_dg (r_h r) = g /\
       (visc_exponent p = 1 -> xi p = 0 -> r_exit r = false /\ flow_residual (Q - f_mu_prefac p * (g * dt)) vy g = 0 /\ vy <= Q - f_mu_prefac p * (g * dt) < Q) /\
       (visc_exponent p <> 1 \/ xi p <> 0 -> 0 < visc_exponent p -> r_exit r = false ->
          Rabs (flow_residual (Q - f_mu_prefac p * (g * dt)) (vm_yield p (h_dev (r_h r))) g) < 1/100)).
  Proof.
    intros Hq r Hr. pose proof (emu_pos p El) as He. pose proof (fmu_pos p El) as Hf. pose proof (fmu_R p) as FE.
    pose proof (K_pos p El) as HK. assert (Hc : 0 < q_prefac p) by (destruct El as (_ & _ & X); auto).
    pose proof (vy_nonneg Hq (h_dev h)) as V0. fold vy in V0.
    unfold pl_VMVisc in Hr. remember 60%nat as n60 eqn:E60 in Hr. assert (N60 : n60 <> 0%nat) by (rewrite E60; discriminate). clear E60. rewrite ?nofZ_R in Hr; numR; rewrite ?(dpre_inv p El) in Hr. change (- bulkK p * t_tr t) with P in Hr. change (e_mu_prefac p * t_n t) with Q in Hr. cbv zeta in Hr.
    change (q_min p + (q_max p - q_min p) * exp (- xi p * h_dev h)) with vy in Hr. change (p_min p * exp (- xi p * h_vol h)) with cap in Hr.
    destruct (Rltb_spec P cap) as [L|L].
    { split; [intros _|split; intros; lra]. subst r. repeat split; hist; [rewrite FE; field; lra|field; lra]. }
    split; [intros; lra|]. destruct (Rltb_spec vy Q) as [L2|L2]; [|split; [auto|intros; lra]].
    split; [intros; lra|]. intros _ _.
    match type of Hr with context [let (_, _) := ?X in _] => destruct X as (dg, ex) eqn:N end.
    assert (Hn0 : t_n t = 0 -> dg = 0) by (intros Z; unfold Q in L2; rewrite Z in L2; lra).
    assert (Key : 0 <= dg /\ (visc_exponent p = 1 -> xi p = 0 -> ex = false /\ flow_residual (Q - f_mu_prefac p * dg) vy (dg / dt) = 0 /\ vy <= Q - f_mu_prefac p * dg < Q) /\
       (visc_exponent p <> 1 \/ xi p <> 0 -> 0 < visc_exponent p -> ex = false -> Rabs (flow_residual (Q - f_mu_prefac p * dg) (vm_yield p (h_dev h + q_prefac p * dg)) (dg / dt)) < 1/100)).
    { destruct (Reqb (visc_exponent p) 1 && Reqb (xi p) 0)%bool eqn:C; cbv iota in N.
      - apply andb_true_iff in C. destruct C as (E1 & E2). apply Reqb_true in E1, E2.
        injection N as <- <-. destruct (closed_R Q vy V0 L2 E1) as (A & B & C). split; [lra|]. split; [|intros [X|X]; contradiction].
        intros _ _. destruct (Rltb_spec (visc_closed p dt Q vy) 0); [lra|auto].
      - destruct (newton_flow n60 Q (fun dg => vm_yield p (h_dev h + q_prefac p * dg)) _ _ _ _ N60 N) as (A & B); [apply Rlt_le, Rdiv_lt_0_compat; lra|]. split; auto. split; [|intros _ Hn Ex; apply (B Hn Ex)].
        intros E1 E2. apply Reqb_true in E1, E2. rewrite E1, E2 in C. discriminate. }
    destruct Key as (D0 & K1 & K2). subst r. exists (dg / dt). replace (dg / dt * dt) with dg by (field; lra).
    split; [apply Rmult_le_pos; auto; apply Rlt_le, Rinv_0_lt_compat; auto|]. split; [apply res_back; hist; auto|]. hist. auto.
  Qed.

  (** ** DPVisc *)
  Definition tipd : R := - q_cohesion p / Mfric p.
  Definition dy : R := Mfric p * (P + sh) + q_cohesion p.
  Lemma dpv_res : 0 < Mfric p -> forall r, r = pl_DPVisc p dt t h ->
    (P + sh < tipd -> Res r tipd 0 (Q / e_mu_prefac p) ((tipd - P) / bulkK p) /\ r_upd r = Rebuild /\ r_cnt r = 1%nat /\ r_exit r = false /\
       h_prad (r_h r) = (if use_pradhana p then h_prad h + (tipd - P) / bulkK p else h_prad h)) /\
    (tipd <= P + sh -> (tipd = P + sh \/ Q <= dy) -> r_hencky r = t_e t /\ r_upd r = Keep /\ r_cnt r = 0%nat /\ r_exit r = false /\ h_dev (r_h r) = h_dev h /\ h_vol (r_h r) = h_vol h /\ h_dg (r_h r) = 0) /\
    (tipd <= P + sh -> h_prad (r_h r) = (if use_pradhana p then 0 else h_prad h)) /\
    (tipd < P + sh -> dy < Q -> exists g, 0 <= g /\ Res r P (Rabs (Q - f_mu_prefac p * (g * dt))) (q_prefac p * (g * dt)) 0 /\
       r_upd r = Rebuild /\ r_cnt r = 1%nat /\ h_dg (r_h r) = g /\
       (visc_exponent p = 1 -> r_exit r = false /\ flow_residual (Q - f_mu_prefac p * (g * dt)) dy g = 0 /\ dy <= Q - f_mu_prefac p * (g * dt) < Q) /\
       (visc_exponent p <> 1 -> 0 < visc_exponent p -> r_exit r = false ->
          Rabs (flow_residual (Q - f_mu_prefac p * (g * dt)) dy g) < 1/100)).
  Proof.
    intros HM r Hr. pose proof (emu_pos p El) as He. pose proof (fmu_pos p El) as Hf. pose proof (fmu_R p) as FE. pose proof (dpre_pos p El) as Hd.
    assert (DI : q_prefac p = / d_prefac p) by (rewrite <- (dpre_inv p El); unfold Rdiv; ring).
    pose proof (K_pos p El) as HK. assert (Hc : 0 < q_prefac p) by (destruct El as (_ & _ & X); auto).
    assert (Hs : (if use_pradhana p then - bulkK p * h_prad h else 0) = sh) by reflexivity.
    unfold pl_DPVisc in Hr. remember 60%nat as n60 eqn:E60 in Hr. assert (N60 : n60 <> 0%nat) by (rewrite E60; discriminate). clear E60. rewrite ?nofZ_R in Hr; numR; rewrite ?(dpre_inv p El) in Hr. change (- bulkK p * t_tr t) with P in Hr. change (e_mu_prefac p * t_n t) with Q in Hr. rewrite Hs in Hr. cbv zeta in Hr.
    change (- q_cohesion p / Mfric p) with tipd in Hr. change (Mfric p * (P + sh) + q_cohesion p) with dy in Hr.
    destruct (Rltb_spec (P + sh) tipd) as [L|L].
    { subst r. split; [intros _|repeat split; intros; lra]. split; [|repeat split; hist; destruct (use_pradhana p), (use_mibf p); reflexivity].
      apply res_iso; hist; auto; destruct (use_pradhana p), (use_mibf p); hist; auto; unfold Q; rewrite DI; field; lra. }
    split; [intros; lra|]. destruct (Rltb_spec tipd (P + sh)) as [L1|L1]; cbn [andb] in Hr.
    2: { subst r. split; [intros _ _; repeat split; hist; destruct (use_pradhana p), (use_mibf p); reflexivity|]. split; [intros _; hist; destruct (use_pradhana p), (use_mibf p); reflexivity|intros; lra]. }
    destruct (Rltb_spec dy Q) as [L2|L2].
    2: { subst r. split; [intros _ _; repeat split; hist; destruct (use_pradhana p), (use_mibf p); reflexivity|]. split; [intros _; hist; destruct (use_pradhana p), (use_mibf p); reflexivity|intros; lra]. }
    assert (V0 : 0 <= dy).
    { replace dy with (Mfric p * (P + sh - tipd)) by (unfold dy, tipd; field; lra). apply Rmult_le_pos; lra. }
    match type of Hr with context [let (_, _) := ?X in _] => destruct X as (dg, ex) eqn:N end.
    subst r. split; [intros _ [X|X]; lra|]. split; [intros _; hist; destruct (use_pradhana p), (use_mibf p); reflexivity|]. intros _ _.
    assert (Hn0 : t_n t = 0 -> dg = 0) by (intros Z; unfold Q in L2; rewrite Z in L2; lra).
    assert (Key : 0 <= dg /\ (visc_exponent p = 1 -> ex = false /\ flow_residual (Q - f_mu_prefac p * dg) dy (dg / dt) = 0 /\ dy <= Q - f_mu_prefac p * dg < Q) /\
       (visc_exponent p <> 1 -> 0 < visc_exponent p -> ex = false -> Rabs (flow_residual (Q - f_mu_prefac p * dg) dy (dg / dt)) < 1/100)).
    { destruct (Reqb_spec (visc_exponent p) 1) as [E1|E1].
      - injection N as <- <-. destruct (closed_R Q dy V0 L2 E1) as (A & B & C). split; [lra|]. split; [|intros X; contradiction].
        intros _. destruct (Rltb_spec (visc_closed p dt Q dy) 0); [lra|auto].
      - destruct (newton_flow n60 Q (fun dg => dy) _ _ _ _ N60 N) as (A & B); [apply Rlt_le, Rdiv_lt_0_compat; lra|]. split; auto. split; [intros; contradiction|].
        intros _ Hn Ex. apply (B Hn Ex). }
    destruct Key as (D0 & K1 & K2). exists (dg / dt). replace (dg / dt * dt) with dg by (field; lra).
    split; [apply Rmult_le_pos; auto; apply Rlt_le, Rinv_0_lt_compat; auto|]. split.
    - apply res_back; hist; auto; destruct (use_pradhana p), (use_mibf p); reflexivity.
    - hist. auto.
  Qed.

  (** ** DPMui *)
  Lemma quad_root_spec : forall a b c, 0 < a -> c <= 0 -> 0 <= quad_root a b c /\ a * (quad_root a b c)² + b * quad_root a b c + c = 0 /\ (c < 0 -> 0 < quad_root a b c).
  Proof.
    intros a b c Ha Hc. unfold quad_root. rewrite !nofZ_R. numR. set (d := b * b - 4 * a * c). assert (Hd : b * b <= d) by (unfold d; nra).
    assert (Hd0 : 0 <= d) by nra. pose proof (sqrt_sqrt d Hd0) as S. pose proof (sqrt_pos d) as S0.
    assert (B : Rabs b <= sqrt d) by (rewrite <- sqrt_Rsqr_abs; apply sqrt_le_1_alt; exact Hd).
    assert (b <= sqrt d) by (pose proof (Rle_abs b); lra). repeat split.
    - apply Rmult_le_pos; [lra|apply Rlt_le, Rinv_0_lt_compat; lra].
    - unfold Rsqr. replace (a * ((- b + sqrt d) / (2 * a) * ((- b + sqrt d) / (2 * a))) + b * ((- b + sqrt d) / (2 * a)) + c) with ((sqrt d * sqrt d - (b * b - 4 * a * c)) / (4 * a)) by (field; lra).
      rewrite S. unfold d. field. lra.
    - intros C. apply Rdiv_lt_0_compat; [|lra]. assert (b * b < d) by (unfold d; nra). assert (b < sqrt d); [|lra].
      destruct (Rlt_le_dec b 0); [lra|]. apply Rsqr_incrst_0; unfold Rsqr; try lra.
  Qed.
  Definition tipm : R := - q_cohesion p / mu_1 p.
  Definition my : R := mu_1 p * (P + sh) + q_cohesion p.
  Lemma dpm_res : 0 < mu_1 p -> mu_1 p <= mu_2 p -> 0 < fac_Q p -> 0 <= stress_tolerance p -> forall r, r = pl_DPMui p dt t h ->
    (P + sh < tipm -> Res r tipm 0 (Q / e_mu_prefac p) ((tipm - P) / bulkK p) /\ r_upd r = Rebuild /\ r_cnt r = 1%nat /\ r_exit r = false /\
       h_muI (r_h r) = mu_1 p /\ h_visc (r_h r) = 0 /\ h_prad (r_h r) = h_prad h + (tipm - P) / bulkK p) /\
    (tipm <= P + sh -> (tipm = P + sh \/ Q <= my + stress_tolerance p) -> r_hencky r = t_e t /\ r_upd r = Keep /\ r_cnt r = 0%nat /\ r_exit r = false /\
       h_dev (r_h r) = h_dev h /\ h_vol (r_h r) = h_vol h /\ h_muI (r_h r) = mu_1 p /\ h_visc (r_h r) = 0 /\ h_prad (r_h r) = 0) /\
    (tipm < P + sh -> my + stress_tolerance p < Q -> exists g, 0 < g /\ Res r P (Rabs (Q - f_mu_prefac p * (g * dt))) (q_prefac p * (g * dt)) 0 /\
       r_upd r = Rebuild /\ r_cnt r = 1%nat /\ r_exit r = false /\ h_dg (r_h r) = g /\ h_prad (r_h r) = 0 /\
       mu_1 p <= h_muI (r_h r) <= mu_2 p /\ (mu_1 p < mu_2 p -> mu_1 p < h_muI (r_h r) < mu_2 p) /\
       Q - f_mu_prefac p * (g * dt) = my + (h_muI (r_h r) - mu_1 p) * P /\
       h_muI (r_h r) = mu_1 p + (mu_2 p - mu_1 p) / (fac_Q p * sqrt (P + sh - tipm + stress_tolerance p) / g + 1) /\
       h_visc (r_h r) = (h_muI (r_h r) - mu_1 p) * (P + sh - tipm + stress_tolerance p) / g).
  Proof.
    intros HM HMM HQ Ht r Hr. pose proof (emu_pos p El) as He. pose proof (fmu_pos p El) as Hf. pose proof (fmu_R p) as FE. pose proof (dpre_pos p El) as Hd.
    assert (DI : q_prefac p = / d_prefac p) by (rewrite <- (dpre_inv p El); unfold Rdiv; ring).
    pose proof (K_pos p El) as HK. assert (Hc : 0 < q_prefac p) by (destruct El as (_ & _ & X); auto).
    assert (Hs : (if use_pradhana p then - bulkK p * h_prad h else 0) = sh) by reflexivity.
    unfold pl_DPMui in Hr. rewrite ?nofZ_R in Hr; numR; rewrite ?(dpre_inv p El) in Hr. change (- bulkK p * t_tr t) with P in Hr. change (e_mu_prefac p * t_n t) with Q in Hr. rewrite Hs in Hr. cbv zeta in Hr.
    change (- q_cohesion p / mu_1 p) with tipm in Hr. change (mu_1 p * (P + sh) + q_cohesion p) with my in Hr.
    destruct (Rltb_spec (P + sh) tipm) as [L|L].
    { subst r. split; [intros _|repeat split; intros; lra]. split; [|repeat split; hist; reflexivity].
      apply res_iso; hist; auto; unfold Q; rewrite DI; field; lra. }
    split; [intros; lra|]. destruct (Rltb_spec tipm (P + sh)) as [L1|L1]; cbn [andb] in Hr.
    2: { subst r. split; [intros _ _; repeat split; hist; reflexivity|intros; lra]. }
    destruct (Rltb_spec (my + stress_tolerance p) Q) as [L2|L2].
    2: { subst r. split; [intros _ _; repeat split; hist; reflexivity|intros; lra]. }
    split; [intros _ [X|X]; lra|]. intros _ _.
    assert (V0 : 0 < my).
    { replace my with (mu_1 p * (P + sh - tipm)) by (unfold my, tipm; field; lra). apply Rmult_lt_0_compat; lra. }
    set (ps := P + sh - tipm + stress_tolerance p). assert (Hps : 0 < ps) by (unfold ps; lra). pose proof (sqrt_lt_R0 ps Hps) as Sps.
    set (s := fac_Q p * sqrt ps). assert (Hs0 : 0 < s) by (unfold s; rpos).
    set (fb := P * (mu_2 p - mu_1 p) + f_mu_prefac p * dt * fac_Q p * sqrt ps - (Q - my)).
    set (fc := - (Q - my) * fac_Q p * sqrt ps). assert (Hfc : fc < 0).
    { replace fc with (- ((Q - my) * s)) by (unfold fc, s; ring). assert (0 < (Q - my) * s) by (apply Rmult_lt_0_compat; lra). lra. }
    destruct (quad_root_spec (f_mu_prefac p * dt) fb fc) as (_ & Root & Pos); [rpos|lra|].
    set (g := quad_root (f_mu_prefac p * dt) fb fc) in *. specialize (Pos Hfc).
    set (mui := mu_1 p + (mu_2 p - mu_1 p) / (s / g + 1)).
    assert (Hsg : 0 < s / g) by (apply Rdiv_lt_0_compat; lra).
    assert (Frac : 0 < / (s / g + 1) < 1).
    { split; [apply Rinv_0_lt_compat; lra|]. rewrite <- Rinv_1. apply Rinv_lt_contravar; lra. }
    fold ps in Hr. fold s fb fc in Hr. fold g in Hr. fold mui in Hr. subst r. exists g. split; auto. split.
    - apply res_back; hist; auto. intros Z. exfalso. unfold Q in L2. rewrite Z in L2. lra.
    - hist. fold mui. repeat split; try reflexivity; try (unfold mui, Rdiv; nra); try (field; lra).
      assert (E : (g + s) * (f_mu_prefac p * dt * g - (Q - my)) + P * (mu_2 p - mu_1 p) * g = 0) by (unfold s; unfold fb, fc, Rsqr in Root; lra).
      unfold mui. replace (mu_1 p + (mu_2 p - mu_1 p) / (s / g + 1) - mu_1 p) with ((mu_2 p - mu_1 p) * g / (g + s)) by (field; lra).
      apply (Rmult_eq_reg_r (g + s)); [|lra]. replace ((my + (mu_2 p - mu_1 p) * g / (g + s) * P) * (g + s)) with (my * (g + s) + (mu_2 p - mu_1 p) * g * P) by (field; lra). lra.
  Qed.

  (** ** Cam-Clay *)
  Lemma combo_vals : forall e a b, e = combo t a b -> - bulkK p * vsum e = - bulkK p * b /\ e_mu_prefac p * vnorm (dev e) = if Rltb 0 (t_n t) then e_mu_prefac p * Rabs a else 0.
  Proof. intros e a b ->. rewrite combo_sum, combo_dev by auto. split; auto. destruct (Rltb_spec 0 (t_n t)); ring. Qed.
  Lemma Q_pos : Rltb 0 (t_n t) = Rltb 0 Q.
  Proof.
    unfold Q. pose proof (emu_pos p El) as He. destruct (Rltb_spec 0 (t_n t)) as [L|L], (Rltb_spec 0 (e_mu_prefac p * t_n t)) as [M|M]; auto; exfalso.
    - apply M. rpos.
    - pose proof (t_n_nonneg t T). assert (t_n t = 0) as Z by lra. rewrite Z in M. lra.
  Qed.
  (** MCC and MCCVisc: [r0] is the result of the return mapping algorithm. *)
  Lemma mcc_res : forall r, pl_MCC uabs p dt t h = Ok r -> exists r0 pc, mcc_rma uabs p false P Q (h_vol h) = Some (r0, pc) /\
    (rm_plastic r0 = false -> r_hencky r = t_e t /\ r_upd r = Keep /\ r_cnt r = 0%nat /\ r_exit r = rm_exit r0 /\
       h_dev (r_h r) = h_dev h /\ h_vol (r_h r) = h_vol h) /\
    (rm_plastic r0 = true -> r_upd r = Rebuild /\ r_cnt r = 1%nat /\ exists b qs,
       Res r (P - b * (P - rm_p r0)) (if Rltb 0 Q then Rabs (Q - b * (Q - qs)) else 0) (b * (Q - qs) / e_mu_prefac p) (- b * (P - rm_p r0) / bulkK p) /\
       (plastic_model p <> MCCVisc -> b = 1 /\ qs = rm_q r0 /\ r_exit r = rm_exit r0) /\
       (plastic_model p = MCCVisc -> use_dl p = true -> b = 1 / (1 + visc_time p / dt) /\ qs = rm_q r0 /\ (visc_exponent p = 1 -> r_exit r = rm_exit r0)) /\
       (plastic_model p = MCCVisc -> use_dl p = false -> b = 1 /\ rm_q r0 <= qs /\ (0 <= rm_q r0 <= Q -> qs <= Q /\
          (visc_exponent p = 1 -> r_exit r = rm_exit r0 /\ flow_residual_perzyna p qs (rm_q r0) ((Q - qs) / f_mu_prefac p / dt) = 0)))).
  Proof.
    intros r H. unfold pl_MCC in H. remember 60%nat as n60 eqn:E60 in H. assert (N60 : n60 <> 0%nat) by (rewrite E60; discriminate). clear E60.
    change (nmul (nopp (bulkK p)) (t_tr t)) with P in H. change (nmul (e_mu_prefac p) (t_n t)) with Q in H. cbv zeta in H.
    destruct (mcc_rma uabs p false P Q (h_vol h)) as [(r0, pc)|] eqn:Er; [|discriminate]. exists r0, pc. split; auto.
    destruct (rm_plastic r0) eqn:Pl.
    2: { apply Ok_inj in H; subst r. split; [intros _|discriminate]. cbn [r_hencky r_upd r_cnt r_exit r_h]. destruct (use_mibf p); repeat split; reflexivity. }
    split; [discriminate|]. intros _.
    match type of H with (let (_, _) := ?X in _) = _ => destruct X as ((b, qs), ex) eqn:V end.
    match type of H with (bind ?X _) = _ => set (HH := X) in H end.
    destruct HH as [h2| |] eqn:Eh; cbn [bind] in H; try discriminate. apply Ok_inj in H; subst r. subst HH.
    assert (Hh : h_dev h2 = h_dev h + b * (Q - qs) / e_mu_prefac p /\ h_vol h2 = h_vol h + - b * (P - rm_p r0) / bulkK p).
    { clear V. numR. destruct (use_mibf p); [|apply Ok_inj in Eh; subst h2; cbn [h_dev h_vol set_dg add_dev add_vol]; auto].
      match type of Eh with (bind ?X _) = _ => destruct X as [c| |] end; cbn [bind] in Eh; try discriminate.
      match type of Eh with (if ?c then _ else _) = _ => destruct c end; [apply Ok_inj in Eh; subst h2; split; reflexivity|].
      destruct (use_dl p); apply Ok_inj in Eh; subst h2; split; reflexivity. }
    cbn [r_upd r_cnt r_exit]. split; auto. split; auto. exists b, qs. pose proof (K_pos p El) as HK. pose proof (emu_pos p El) as He. pose proof (fmu_pos p El) as Hf. split.
    - destruct (combo_vals (combo t (Q / e_mu_prefac p - b * (Q - qs) / e_mu_prefac p) (- P / bulkK p - - b * (P - rm_p r0) / bulkK p)) _ _ eq_refl) as (A & B).
      destruct Hh as (H1 & H2). split; cbn [r_hencky r_upd r_h]; auto; try discriminate; numR; rewrite ?dimA_R.
      + unfold combo in A. rewrite A. field. lra.
      + unfold combo in B. rewrite B, Q_pos. destruct (Rltb 0 Q); auto.
        rewrite <- (Rabs_pos_eq (e_mu_prefac p)) at 1 by lra. rewrite <- Rabs_mult. f_equal. field. lra.
    - clear Hh Eh. repeat split.
      + destruct (plastic_model p); try (inj3 V; rewrite nofZ_R; reflexivity). congruence.
      + destruct (plastic_model p); try (inj3 V; reflexivity). congruence.
      + destruct (plastic_model p); try (inj3 V; apply orb_false_r). congruence.
      + rewrite H, H0 in V. inj3 V. rewrite !nofZ_R. reflexivity.
      + rewrite H, H0 in V. inj3 V. reflexivity.
      + intros E1. rewrite H, H0 in V. inj3 V. numR. rewrite nofZ_R. apply Reqb_true in E1. rewrite E1. apply orb_false_r.
      + rewrite H, H0 in V. match type of V with (let (_, _) := ?X in _) = _ => destruct X as (dg, ex1) end. inj3 V. now rewrite nofZ_R.
      + rewrite H, H0 in V. match type of V with (let (_, _) := ?X in _) = _ => destruct X as (dg, ex1) end. inj3 V. rewrite cmax_R. apply Rmax_l.
      + rewrite H, H0 in V. match type of V with (let (_, _) := ?X in _) = _ => destruct X as (dg, ex1) eqn:N end. inj3 V. rewrite cmax_R. numR.
        apply Rmax_lub; [lra|]. assert (0 <= dg); [|assert (0 <= f_mu_prefac p * dg) by (apply Rmult_le_pos; lra); lra].
        rewrite !nofZ_R in N. numR. destruct (Reqb (visc_exponent p) 1).
        * match type of N with (if Rltb ?a _ then _ else _) = _ => set (d := a) in N end.
          assert (0 <= d). { unfold d. apply Rmult_le_pos; [lra|apply Rlt_le, Rinv_0_lt_compat]. assert (0 <= rm_q r0 * visc_time p / dt); [|lra].
            apply Rmult_le_pos; [apply Rmult_le_pos; lra|apply Rlt_le, Rinv_0_lt_compat; auto]. }
          destruct (Rltb_spec d 0); [lra|]. inj2 N. auto.
        * apply newton_spec in N; [apply N|]. apply Rmult_le_pos; [|apply Rlt_le, Rinv_0_lt_compat; auto]. apply Rmult_le_pos; lra.
      + rewrite H, H0 in V. match type of V with (let (_, _) := ?X in _) = _ => destruct X as (dg, ex1) eqn:N end. inj3 V.
        rewrite !nofZ_R in N. numR. apply Reqb_true in H2. rewrite H2 in N.
        match type of N with (if Rltb ?a _ then _ else _) = _ => set (d := a) in N end.
        assert (0 <= d). { unfold d. apply Rmult_le_pos; [lra|apply Rlt_le, Rinv_0_lt_compat]. assert (0 <= rm_q r0 * visc_time p / dt); [|lra].
            apply Rmult_le_pos; [apply Rmult_le_pos; lra|apply Rlt_le, Rinv_0_lt_compat; auto]. }
        destruct (Rltb_spec d 0); [lra|]. inj2 N. apply orb_false_r.
      + rewrite H, H0 in V. match type of V with (let (_, _) := ?X in _) = _ => destruct X as (dg, ex1) eqn:N end. inj3 V. rewrite cmax_R. numR.
        rewrite !nofZ_R in N. numR. pose proof H2 as E1. apply Reqb_true in H2. rewrite H2 in N.
        match type of N with (if Rltb ?a _ then _ else _) = _ => set (d := a) in N end.
        assert (V0 : 0 <= rm_q r0 * visc_time p / dt) by (apply Rmult_le_pos; [apply Rmult_le_pos; lra|apply Rlt_le, Rinv_0_lt_compat; auto]).
        assert (D0 : 0 <= d). { unfold d. apply Rmult_le_pos; [lra|apply Rlt_le, Rinv_0_lt_compat]. lra. }
        destruct (Rltb_spec d 0); [lra|]. inj2 N.
        assert (E : Q - f_mu_prefac p * d = rm_q r0 * (1 + visc_time p * (d / dt))).
        { assert (0 <= rm_q r0 * visc_time p) by (apply Rmult_le_pos; lra). assert (0 < f_mu_prefac p * dt) by rpos. unfold d. field. split; lra. }
        assert (W : 0 <= visc_time p * (d / dt)) by (apply Rmult_le_pos; auto; apply Rmult_le_pos; auto; apply Rlt_le, Rinv_0_lt_compat; auto).
        rewrite Rmax_right by (rewrite E; nra). replace ((Q - (Q - f_mu_prefac p * d)) / f_mu_prefac p / dt) with (d / dt) by (field; lra).
        unfold flow_residual_perzyna. rewrite E1, Rpower_1, E by lra. set (w := visc_time p * (d / dt)) in *. field. lra.
  Qed.
  (** MCCMui *)
  Lemma mccmui_res : forall r, pl_MCCMui uabs p dt t h = Ok r -> exists r0 pc, mcc_rma uabs p true P Q (h_vol h) = Some (r0, pc) /\
    (rm_plastic r0 = false -> r_hencky r = t_e t /\ r_upd r = Keep /\ r_cnt r = 0%nat /\ r_exit r = rm_exit r0 /\
       h_dev (r_h r) = h_dev h /\ h_vol (r_h r) = h_vol h /\ h_muI (r_h r) = mu_1 p /\ h_visc (r_h r) = 0) /\
    (rm_plastic r0 = true -> r_upd r = Rebuild /\ r_cnt r = 1%nat /\ r_exit r = rm_exit r0 /\ exists qs,
       Res r (rm_p r0) (if Rltb 0 Q then Rabs qs else 0) (if Rltb (rm_q r0 + stress_tolerance p) Q then (Q - qs) / e_mu_prefac p else 0) ((rm_p r0 - P) / bulkK p) /\
       rm_q r0 <= qs /\ (rm_q r0 + stress_tolerance p < Q -> 0 <= stress_tolerance p -> 0 <= fac_Q p -> qs <= Q) /\ (Q <= rm_q r0 + stress_tolerance p -> qs = rm_q r0)).
  Proof.
    intros r H. unfold pl_MCCMui in H.
    change (nmul (nopp (bulkK p)) (t_tr t)) with P in H. change (nmul (e_mu_prefac p) (t_n t)) with Q in H. cbv zeta in H.
    destruct (mcc_rma uabs p true P Q (h_vol h)) as [(r0, pc)|] eqn:Er; [|discriminate]. exists r0, pc. split; auto.
    destruct (rm_plastic r0) eqn:Pl.
    2: { apply Ok_inj in H; subst r. split; [intros _|discriminate]. cbn [r_hencky r_upd r_cnt r_exit r_h]. repeat split; try reflexivity. cbn. apply nofZ_R. }
    split; [discriminate|]. intros _.
    match type of H with (let (_, _) := ?X in _) = _ => destruct X as (qs, h2) eqn:V end.
    apply Ok_inj in H; subst r. cbn [r_upd r_cnt r_exit]. repeat (split; [reflexivity|]). exists qs.
    pose proof (K_pos p El) as HK. pose proof (emu_pos p El) as He. pose proof (fmu_pos p El) as Hf. pose proof dim_R_pos as Hdim.
    assert (Fin : rm_q r0 <= qs /\ (rm_q r0 + stress_tolerance p < Q -> 0 <= stress_tolerance p -> 0 <= fac_Q p -> qs <= Q) /\ (Q <= rm_q r0 + stress_tolerance p -> qs = rm_q r0) /\
      h_dev h2 = h_dev h + (if Rltb (rm_q r0 + stress_tolerance p) Q then (Q - qs) / e_mu_prefac p else 0) /\ h_vol h2 = h_vol h + (rm_p r0 - P) / bulkK p).
    { change (nadd (rm_q r0) (stress_tolerance p)) with (rm_q r0 + stress_tolerance p) in V. numR. destruct (Rltb_spec (rm_q r0 + stress_tolerance p) Q) as [L|L].
      - match type of V with context [quad_root ?a ?b ?c] => set (gd := quad_root a b c) in V; assert (Root : a = f_mu_prefac p * dt /\ exists x, c = - (Q - rm_q r0) * fac_Q p * sqrt x) by (split; [reflexivity|eexists; reflexivity]) end.
        assert (G0 : 0 <= stress_tolerance p -> 0 <= fac_Q p -> 0 <= gd).
        { intros T0 F0. destruct Root as (_ & x & _).
          apply quad_root_spec; [rpos|]. match goal with |- _ * _ * sqrt ?y <= 0 => pose proof (sqrt_pos y) as S end.
          assert (0 <= (Q - rm_q r0) * fac_Q p) by (apply Rmult_le_pos; lra). nra. }
        clearbody gd. inj2 V. rewrite cmax_R. cbn [h_dev h_vol set_dg add_dev set_visc set_muI add_vol]. numR. repeat split.
        + apply Rmax_l.
        + intros _ T0 F0. specialize (G0 T0 F0). apply Rmax_lub; [lra|]. assert (0 <= f_mu_prefac p * dt * gd) by (apply Rmult_le_pos; auto; apply Rlt_le; rpos). lra.
        + intros; lra.
        + rewrite nofZ_R, (dpre_inv p El), (fmu_R p). destruct El as (_ & _ & Hq). f_equal. field. lra.
        + unfold P. rewrite dimA_R. f_equal. field. lra.
      - inj2 V. cbn [h_dev h_vol set_dg add_dev set_visc set_muI add_vol]. numR. repeat split; try lra. unfold P. rewrite dimA_R. f_equal. field. lra. }
    destruct Fin as (F1 & F2 & F3 & F4 & F5). split; auto.
    destruct (combo_vals (combo t (qs / e_mu_prefac p) (- rm_p r0 / bulkK p)) _ _ eq_refl) as (A & B).
    replace (combo t (qs / e_mu_prefac p) (- rm_p r0 / bulkK p)) with (vsub (lscale (qs / e_mu_prefac p) (t_dir t)) (lscale (rm_p r0 / (bulkK p * dimA)) vones)) in A, B.
    2: { unfold combo. rewrite dimA_R. apply vext. intros k Hk. autorewrite with geo. rewrite vget_ones by auto. field. lra. }
    split; cbn [r_hencky r_upd r_h]; auto; try discriminate; numR.
    - rewrite A. field. lra.
    - rewrite B, Q_pos. destruct (Rltb 0 Q); auto. rewrite <- (Rabs_pos_eq (e_mu_prefac p)) at 1 by lra. rewrite <- Rabs_mult. f_equal. field. lra.
  Qed.
End Models.
