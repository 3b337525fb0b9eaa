(** * Property C68: plastic flow dissipates elastic energy. *)
From Coq Require Import Reals ZArith Lra Lia List Bool.
From Verif Require Import Num NumR Tools Lin Types Remesh Objects Transfer Rma Plastic Pbc Step Spec SpecStep SpecPlastic SpecEnergy SpecMaterial
  LinProofs PlasticProofs PlasticModels PlasticGlue PropPlastic SvdExist ExPlastic PropFriction PropDefined ExPlastic.
Import ListNotations.
Local Open Scope R_scope.

(** The energy is that of Hencky's law. *)
Theorem C68_energy : forall G, two_or_three G -> forall (p : Par R) U e, elastic p -> orthogonal U ->
  elastic_energy p (hencky_stress p U e) = mu p * sumd (fun k => (vget e k)²) + lambda p / 2 * (sumd (fun k => vget e k))².
Proof.
  intros G HG p U e El HU. pose proof (geolaws G HG) as GL. pose proof (mu_pos p El) as Hm. pose proof (K_pos p El) as HK.
  unfold elastic_energy. rewrite <- hencky_tau_eq, stress_pressure, stress_shear by (auto; lra).
  assert (N : (vnorm (dev e))² = sumd (fun k => (vget e k)²) - (vsum e)² / INR dim).
  { unfold vnorm. numR. rewrite Rsqr_sqrt by apply vsqnorm_nonneg. unfold vsqnorm, vdot. numR. pose proof dim_R_pos.
    rewrite (sumd_ext _ (fun k => (vget e k)² + (- 2 * vsum e / INR dim) * vget e k + (vsum e / INR dim)²)) by (intros k Hk; rewrite vget_dev by auto; unfold Rsqr; field; lra).
    rewrite !sumd_plus, sumd_scal, sumd_const. change (sumd (vget e)) with (vsum e). unfold Rsqr. field. lra. }
  change (sumd (fun k => vget e k)) with (vsum e). pose proof (bulk_R p) as B. pose proof dim_R_pos as D.
  transitivity (bulkK p / 2 * (vsum e)² + mu p * (vnorm (dev e))²); [unfold Rsqr; field; lra|]. rewrite N, B. unfold Rsqr. field. lra.
Qed.
Print Assumptions C68_energy.

Lemma energy_le : forall G, two_or_three G -> forall (p : @Par R G) S S', elastic p -> Rabs (pressure S') <= Rabs (pressure S) ->
  shear (q_prefac p) S' <= shear (q_prefac p) S -> elastic_energy p S' <= elastic_energy p S.
Proof.
  intros G HG p S S' El Hp Hq. pose proof (geolaws G HG) as GL. pose proof (mu_pos p El) as Hm. pose proof (K_pos p El) as HK. destruct El as (_ & _ & Hc).
  assert (A : forall c T, shear c T = c * shear 1 T) by (intros; unfold shear; ring). rewrite !(A (q_prefac p)) in Hq.
  assert (B : forall T : @TM R G, 0 <= shear 1 T) by (intros; unfold shear; rewrite Rmult_1_l; apply sqrt_pos).
  apply Rmult_le_reg_l in Hq; auto. unfold elastic_energy. apply Rplus_le_compat; apply Rmult_le_compat_r; try (apply Rlt_le, Rinv_0_lt_compat; lra).
  - now apply Rsqr_le_abs_1.
  - apply Rsqr_incr_1; auto.
Qed.
Lemma abs_between : forall t P, P <= t <= 0 -> Rabs t <= Rabs P.
Proof. intros. rewrite !Rabs_left1; lra. Qed.

(** The stored stress after the return mapping has no more elastic energy than the trial stress. *)
Theorem C68_dissipation_partial : forall G, two_or_three G -> forall svd uabs p dt F tau h o, updated svd uabs p dt F tau h o ->
  let S := trial_stress svd p F in dissipative p h (pressure S) -> elastic_energy p (o_tau o) <= elastic_energy p S.
Proof.
  intros G HG svd uabs p dt F tau h o H S D. pose proof H as (_ & El & Sa & _ & _ & _). pose proof Sa as [SM Sc Sx Sq Sv Sn S1 S2 _ _ _ St _ _].
  pose proof (mu_pos p El) as Hmu. destruct (El) as (_ & _ & Hc).
  assert (Sh : 0 <= shear (q_prefac p) S) by (unfold shear; apply Rmult_le_pos; [lra|apply sqrt_pos]).
  assert (Keep : o_tau o = S -> elastic_energy p (o_tau o) <= elastic_energy p S) by (intros ->; lra).
  assert (El0 : elastic_domain p h (pressure S) (shear (q_prefac p) S) -> elastic_energy p (o_tau o) <= elastic_energy p S).
  { intros E. destruct (C34_elastic_states G HG svd uabs p dt F tau h o H E) as (_ & E1 & _). now apply Keep. }
  assert (Visc : forall g q', viscous_return p dt S h o g q' -> 0 <= q' -> elastic_energy p (o_tau o) <= elastic_energy p S).
  { intros g q' (G0 & Eq & Ep & Es & _) Q0. apply energy_le; auto; [rewrite Ep; lra|]. rewrite Es, Rabs_pos_eq, Eq by auto.
    assert (0 <= 2 * (q_prefac p)² * mu p * (g * dt)); [|lra]. destruct H as (_ & _ & _ & _ & Hdt & _). pose proof (Rle_0_sqr (q_prefac p)). assert (0 <= g * dt) by (apply Rmult_le_pos; lra). assert (0 <= (q_prefac p)² * mu p) by (apply Rmult_le_pos; lra). nra. }
  unfold dissipative in D. destruct (plastic_model p) eqn:Pm.
  - apply El0. unfold elastic_domain. now rewrite Pm.
  - destruct (C35_von_mises G HG svd uabs p dt F tau h o H Pm) as (A & B & _). fold S in A, B. apply energy_le; auto; [rewrite A; lra|rewrite B; apply Rmin_l].
  - destruct (C36_drucker_prager G HG svd uabs p dt F tau h o H Pm) as (A & B & _). fold S in A, B.
    destruct (Rlt_le_dec (Mfric p * pressure S + q_cohesion p) (1/10000000000)) as [L|L].
    + destruct (A L) as (A1 & A2 & _). apply energy_le; auto; [|rewrite A2; auto]. rewrite A1. destruct D as [D|D].
      * assert (L' : Mfric p * pressure S + q_cohesion p <= 0) by (destruct (Rle_lt_dec (Mfric p * pressure S + q_cohesion p) 0); auto; exfalso; apply D; lra).
        apply abs_between. split.
        -- apply (Rmult_le_reg_l (Mfric p)); auto. replace (Mfric p * (- q_cohesion p / Mfric p)) with (- q_cohesion p) by (field; lra). lra.
        -- assert (0 <= q_cohesion p / Mfric p) by (apply Rmult_le_pos; [lra|apply Rlt_le, Rinv_0_lt_compat; lra]). unfold Rdiv in *. lra.
      * rewrite D. replace (- 0 / Mfric p) with 0 by (field; lra). rewrite Rabs_R0. apply Rabs_pos.
    + destruct (B L) as (B1 & B2 & _). apply energy_le; auto; [rewrite B1; lra|rewrite B2; apply Rmin_l].
  - (* softening *)
    destruct (C37_softening_drucker_prager_partial G HG svd uabs p dt F tau h o H Pm) as (A & B & C & E & _ & _ & _ & Z). fold S in A, B, C, E, Z.
    assert (T0 : forall e, soft_tip p e <= 0).
    { intros e. unfold soft_tip. assert (0 <= q_cohesion p / Mfric p * exp (- xi p * e)); [|unfold Rdiv in *; lra].
      apply Rmult_le_pos; [apply Rmult_le_pos; [lra|apply Rlt_le, Rinv_0_lt_compat; lra]|apply Rlt_le, exp_pos]. }
    assert (Tip : forall e, pressure S + vol_shift p h <= soft_tip p e -> Rabs (soft_tip p e) <= Rabs (pressure S)).
    { intros e L. destruct D as [D|D]; [apply abs_between; rewrite D in L; split; [lra|apply T0]|].
      assert (X : soft_tip p e = 0) by (unfold soft_tip; rewrite D; unfold Rdiv; ring). rewrite X, Rabs_R0. apply Rabs_pos. }
    destruct (Rle_lt_dec (pressure S + vol_shift p h) (soft_tip p (h_dev h))) as [L|L].
    + destruct (A L) as (A1 & A2 & _). apply energy_le; auto; [rewrite A1; now apply Tip|rewrite A2; auto].
    + destruct (Rle_lt_dec (shear (q_prefac p) S) (Mfric p * (pressure S + vol_shift p h - soft_tip p (h_dev h)))) as [L2|L2].
      * destruct (B L L2) as (_ & B1 & _). now apply Keep.
      * set (e1 := h_dev h + (shear (q_prefac p) S - Mfric p * (pressure S + vol_shift p h - soft_tip p (h_dev h))) / (2 * q_prefac p * mu p)) in *.
        destruct (Rlt_le_dec (pressure S + vol_shift p h) (soft_tip p e1)) as [L3|L3].
        -- destruct (C L L2 L3) as (A1 & A2 & _). apply energy_le; auto; [rewrite A1; apply Tip; lra|rewrite A2; auto].
        -- destruct (E L L2 L3) as (A1 & A2 & _). apply energy_le; auto; [rewrite A1; lra|]. rewrite A1 in Z. destruct Z as [Z|Z]; lra.
  - contradiction.
  - (* viscous von Mises *)
    destruct D as (D1 & D2).
    destruct (Rlt_le_dec (pressure S) (p_min p * exp (- xi p * h_vol h))) as [L|L].
    + apply Keep. clear - H HG Pm L. subst S. setup G HG H. rewrite EP in L. rewrite ET, Htau. unfold return_map in Hr. rewrite Pm in Hr. apply Ok_inj in Hr. destruct Sa.
      destruct (vmv_res p El dt (trial s) T h Hdt sa_visc sa_q r (eq_sym Hr)) as (K & _). destruct (K L) as (K1 & _). now rewrite K1.
    + destruct (Rle_lt_dec (shear (q_prefac p) S) (vm_yield p (h_dev h))) as [L2|L2].
      * apply El0. unfold elastic_domain. rewrite Pm. auto.
      * destruct (C38_viscous_von_mises G HG svd uabs p dt F tau h o H Pm L L2) as (g & q' & V & W & _). destruct (W D1 D2) as (_ & _ & W1).
        apply (Visc g q'); auto. assert (0 <= vm_yield p (h_dev h)); [|lra]. unfold vm_yield. assert (0 <= (q_max p - q_min p) * exp (- xi p * h_dev h)) by (apply Rmult_le_pos; [lra|apply Rlt_le, exp_pos]). lra.
  - (* viscous Drucker-Prager *)
    destruct D as (D1 & D2). destruct (C38_viscous_drucker_prager G HG svd uabs p dt F tau h o H Pm) as (A & B). fold S in A, B.
    destruct (total_order_T (pressure S + vol_shift p h) (- q_cohesion p / Mfric p)) as [[L|L]|L].
    + destruct (A L) as (A1 & A2 & _). apply energy_le; auto; [rewrite A1|rewrite A2; auto].
      assert (0 <= q_cohesion p / Mfric p) by (apply Rmult_le_pos; [lra|apply Rlt_le, Rinv_0_lt_compat; lra]).
      destruct D1 as [D1|D1]; [apply abs_between; rewrite D1 in L; unfold Rdiv in *; lra|]. rewrite D1. replace (- 0 / Mfric p) with 0 by (field; lra). rewrite Rabs_R0. apply Rabs_pos.
    + apply Keep. clear - H HG Pm L. subst S. setup G HG H. rewrite EP in L. rewrite ET, Htau. unfold return_map in Hr. rewrite Pm in Hr. apply Ok_inj in Hr. destruct Sa.
      destruct (dpv_res p El dt (trial s) T h Hdt sa_visc sa_M r (eq_sym Hr)) as (_ & K & _). destruct (K ltac:(unfold tipd, sh, vol_shift in *; lra) ltac:(left; unfold tipd, sh, vol_shift in *; lra)) as (K1 & _). now rewrite K1.
    + apply Rgt_lt in L. destruct (Rle_lt_dec (shear (q_prefac p) S) (Mfric p * (pressure S + vol_shift p h) + q_cohesion p)) as [L2|L2].
      * apply El0. unfold elastic_domain. rewrite Pm. split; [lra|auto].
      * destruct (B L L2) as (g & q' & V & W & _). destruct (W D2) as (_ & _ & W1). apply (Visc g q'); auto.
        apply (Rmult_lt_compat_l (Mfric p)) in L; auto. replace (Mfric p * (- q_cohesion p / Mfric p)) with (- q_cohesion p) in L by (field; lra). lra.
  - contradiction.
  - (* mu(I) rheology *)
    destruct D as (D1 & D2). assert (T0 : - q_cohesion p / mu_1 p = 0) by (rewrite D1; field; lra).
    assert (V0 : vol_shift p h <= 0).
    { unfold vol_shift. destruct (use_pradhana p); [|lra]. pose proof (D2 eq_refl). pose proof (geolaws G HG) as GL. pose proof (K_pos p El) as HK. nra. }
    destruct (total_order_T (pressure S + vol_shift p h) (- q_cohesion p / mu_1 p)) as [[L|L]|L].
    + destruct (C41_dp_mui_tip G HG svd uabs p dt F tau h o H Pm L) as (A1 & A2 & _). apply energy_le; auto; [rewrite A1, T0, Rabs_R0; apply Rabs_pos|rewrite A2; auto].
    + apply Keep. clear - H HG Pm L. subst S. setup G HG H. rewrite EP in L. rewrite ET, Htau. pose proof (facQ_pos p Sa) as HQ. unfold return_map in Hr. rewrite Pm in Hr. apply Ok_inj in Hr. destruct Sa.
      destruct (dpm_res p El dt (trial s) T h Hdt sa_mu1 sa_mu2 HQ sa_tol r (eq_sym Hr)) as (_ & K & _). destruct (K ltac:(unfold tipm, sh, vol_shift in *; lra) ltac:(left; unfold tipm, sh, vol_shift in *; lra)) as (K1 & _). now rewrite K1.
    + apply Rgt_lt in L. destruct (Rle_lt_dec (shear (q_prefac p) S) (mu_1 p * (pressure S + vol_shift p h) + q_cohesion p + stress_tolerance p)) as [L2|L2].
      * apply El0. unfold elastic_domain. rewrite Pm. split; [lra|auto].
      * destruct (C41_dp_mui G HG svd uabs p dt F tau h o H Pm L L2) as (g & q' & G0 & V & _ & W & _ & (W1 & _) & _). fold S in W. rewrite T0 in L. apply (Visc g q'); auto. rewrite W, D1.
        assert (mu_1 p * (pressure S + vol_shift p h) <= h_muI (o_h o) * pressure S + mu_1 p * vol_shift p h); [|nra].
        rewrite Rmult_plus_distr_l. apply Rplus_le_compat_r, Rmult_le_compat_r; lra.
  - contradiction.
Qed.
Print Assumptions C68_dissipation_partial.

(** A sheared von Mises state loses energy, strictly; a compressed frictional one as well. *)
Example C68_ex : forall uabs, let p := pl_par VM NoHard 1 0 0 1 false false in exists o, updated svdx uabs p 1 (stretch 1 0) mzero h0 o /\
  dissipative p h0 (pressure (trial_stress svdx p (stretch 1 0))) /\ elastic_energy p (o_tau o) < elastic_energy p (trial_stress svdx p (stretch 1 0)).
Proof.
  intros uabs p. destruct (C35_ex uabs) as (o & H & A & B). exists o. split; [exact H|]. split; [exact I|]. fold p in H, A, B.
  destruct (C35_von_mises _ (or_introl eq_refl) svdx uabs p 1 _ _ _ o H eq_refl) as (E & _).
  unfold elastic_energy. rewrite E. apply Rplus_lt_compat_l. unfold Rdiv. apply Rmult_lt_compat_r; [apply Rinv_0_lt_compat; unfold p; rewrite pl_mu; lra|].
  assert (Hq : q_prefac p = 1) by reflexivity. rewrite Hq in *. apply Rsqr_incrst_1; [|rewrite B; lra|]; cbn [q_max p pl_par] in A; fold p in A; lra.
Qed.
Example C68_ex_models : forall uabs,
  (forall pm, In pm [DPSoft; DPVisc; DPMui] -> let p := pl_par pm NoHard (1/10) 0 0 1 false false in exists o, updated svdx uabs p 1 (stretch 0 (-1)) mzero h0 o /\
     (forall P, dissipative p h0 P) /\ ~ elastic_domain p h0 (pressure (trial_stress svdx p (stretch 0 (-1)))) (shear (q_prefac p) (trial_stress svdx p (stretch 0 (-1))))).
Proof.
  intros uabs pm Hi p. destruct (pl_updated uabs pm NoHard (1/10) 0 0 1 false false 0 (-1) h0) as (o & H); try lra.
  { destruct Hi as [<-|[<-|[<-|[]]]]; fin. }
  exists o. split; [exact H|]. destruct (stretch_q pm NoHard (1/10) 0 0 1 false false 0 (-1)) as (A & B); try lra. fold p in A, B.
  assert (V : vol_shift p h0 = 0) by (unfold vol_shift; cbn; ring).
  split.
  - intros P. unfold dissipative. destruct Hi as [<-|[<-|[<-|[]]]]; cbn [plastic_model q_cohesion visc_exponent use_pradhana h_prad h0 p pl_par]; repeat split; auto; lra.
  - rewrite A. set (q := shear _ _) in *. unfold elastic_domain. destruct Hi as [<-|[<-|[<-|[]]]]; cbn [plastic_model p pl_par]; fold p; rewrite V; unfold soft_tip; cbn [Mfric q_cohesion mu_1 stress_tolerance p pl_par]; unfold Rdiv; rewrite ?Ropp_0, ?Rmult_0_l; lra.
Qed.

(** With cohesion the mu(I) model can return a stress of larger magnitude than the trial stress, with
    the sign of the shear reversed: E = 2, nu = 0 (mu = K = 1), mu_1 = 1, mu_2 = 5, cohesion 1,
    trial state p = -3/4 (the tip is at -1), q = 1/2, time step 7/8: q becomes -5/4. *)
Definition mi_par : @Par R (Geo2 R) :=
  {| spline := Deg2; end_frame := 1; use_pbc := false; change_pos := false; gravity_special := false;
     save_sim := true; save_grid := false; use_mibf := false; use_musl := false;
     grid_ref := vtab (fun _ => 20000000000); gravity0 := vzero;
     min_dt := 1/100000000000000; fps := 1; cfl := 1/2; cfl_elastic := 1/2; flip_ratio := 1;
     rho := 1000; gravity_time := 0; Lx := 1; Ly := 1; Lz := 1;
     particle_mass := 1; particle_volume := 1; dx := 1;
     elastic_model := Hencky; plastic_model := DPMui; hardening_law := NoHard;
     use_pradhana := false; young := 2; nu := 0; stress_tolerance := 0; xi := 0;
     q_max := 100; q_min := 100; p_min := -1000;
     Mfric := 1; q_cohesion := 1; visc_exponent := 1; visc_time := 1; use_dl := false;
     beta := 0; p0 := 1000; rho_s := 1; grain_diameter := 1; I_ref := 2;
     mu_1 := 1; mu_2 := 5; q_prefac := 1; objects := [] |}.
Definition C68_statement : Prop := forall G, two_or_three G -> forall svd uabs p dt F tau h o, updated svd uabs p dt F tau h o ->
  elastic_energy p (o_tau o) <= elastic_energy p (trial_stress svd p F).
Theorem C68_dissipation_refuted : ~ C68_statement.
Proof.
  intros St. set (d := sqrt (1/8)). assert (D : 0 <= d) by apply sqrt_pos. assert (D2 : d * d = 1/8) by (apply sqrt_sqrt; lra). assert (D3 : d <= 1) by nra.
  set (a := (3/4 + d)/2). set (b := (3/4 - d)/2). set (p := mi_par). set (S := trial_stress svdx p (stretch a b)).
  assert (El : elastic p) by (unfold elastic, p, mi_par; cbn [young nu q_prefac]; lra).
  assert (Sa : sane p) by (unfold p, mi_par; constructor; cbn; lra).
  assert (Hm : mu p = 1) by (unfold mu, p, mi_par; cbn [young nu]; rewrite ?nofZ_R; numR; field).
  assert (HK : bulkK p = 1) by (rewrite bulk_R; unfold lambda, mu, p, mi_par; cbn [young nu]; rewrite ?nofZ_R; numR; cbn; field).
  destruct (C46_defined_partial _ _ _ svdx Rabs p (7/8) (stretch a b) mzero h0) as (o & E); [intros (_ & [X|([X|X] & _)]); discriminate X|].
  assert (H : updated svdx Rabs p (7/8) (stretch a b) mzero h0 o).
  { split; [apply svdx_ok|]. split; [exact El|]. split; [exact Sa|]. split; [reflexivity|]. split; [lra|exact E]. }
  destruct (stretch_trial p a b El) as (A & B); [unfold a; lra|unfold b; lra|]. fold S in A, B. rewrite HK in A. rewrite Hm in B. change (q_prefac p) with 1 in B.
  replace ((a - b)² / 2) with ((1/4) * (1/4)) in B by (unfold a, b, Rsqr; nra). rewrite sqrt_square in B by lra.
  assert (PS : pressure S = -3/4) by (rewrite A; unfold a, b; lra). clear A.
  assert (V : vol_shift p h0 = 0) by reflexivity.
  destruct (C41_dp_mui _ (or_introl eq_refl) svdx Rabs p (7/8) _ _ _ o H eq_refl) as (g & q' & G0 & (_ & W1 & W2 & W3 & _) & _ & W4 & W5 & _).
  { fold S. rewrite PS, V. cbn [q_cohesion mu_1 p mi_par]. lra. }
  { fold S. change (q_prefac p) with 1. rewrite PS, V, B. cbn [q_cohesion mu_1 stress_tolerance p mi_par]. lra. }
  fold S in W1, W2, W4, W5. rewrite Hm in W1. rewrite V, PS in W4, W5. change (q_prefac p) with 1 in W1, W3. rewrite B in W1.
  assert (W5' : h_muI (o_h o) = 1 + 4 / (1 / g + 1)).
  { rewrite W5. cbn [q_cohesion mu_1 mu_2 I_ref grain_diameter rho_s stress_tolerance p mi_par]. rewrite sqrt_1. replace (-3/4 + 0 - - (1) / 1 + 0) with ((1/2) * (1/2)) by field. rewrite sqrt_square by lra.
    replace (2 / (1 * 1) * (1/2)) with 1 by field. field. split; lra. }
  change (mu_1 p) with 1 in W4. change (q_cohesion p) with 1 in W4. rewrite W5' in W4.
  assert (Q1 : q' * (1 + g) = (1 / 4) * (1 + g) - 3 * g) by (rewrite W4; field; lra).
  assert (g1 : g = 1).
  { assert (X : (g - 1) * (7 * g + 1) = 0); [|apply Rmult_integral in X; destruct X; lra]. rewrite W1 in Q1. unfold Rsqr in Q1. lra. }
  subst g. assert (q1 : q' = -5/4) by lra.
  specialize (St _ (or_introl eq_refl) svdx Rabs p (7/8) _ _ _ o H). fold S in St. unfold elastic_energy in St. rewrite W2, W3, B, Hm, HK, PS, q1, (Rabs_left (-5/4)) in St by lra. unfold Rsqr in St. lra.
Qed.
Print Assumptions C68_dissipation_refuted.
