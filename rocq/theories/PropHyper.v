(** * Property C73: the stress and the nodal forces derive from an elastic energy. *)
From Coq Require Import Reals ZArith Lra Lia List Bool.
From Coquelicot Require Import Coquelicot.
From Verif Require Import Num NumR Tools Lin Types Remesh Objects Transfer Rma Plastic Piola Pbc Step Spec SpecStep SpecMech SpecObj SpecPlastic SpecMaterial
  SpecMpm SpecHyper SpecTime LinProofs ResProofs PlasticProofs PlasticModels MaterialStep StressProofs ExStep ExMech HyperProofs SvdExist PropTime PropMpm.
Import ListNotations.
Local Open Scope R_scope.

(** Derivative of the energy along a velocity gradient [L]: stress power [tau : L]. *)
Theorem C73_stress : forall G, two_or_three G -> forall p psi (F tau L : @TM R G), 0 < mdet F -> strain_energy p psi -> elastic_stress p F tau ->
  is_derive (fun t : R => psi (mmul (madd mident (mlscale t L)) F)) 0 (inner tau L).
Proof.
  intros G HG p psi F tau L HF Hp Ht. unfold elastic_stress in Ht. destruct (elastic_model p) eqn:Em.
  - exact (hencky_derive HG F L HF p psi tau Em Hp Ht).
  - subst tau. exact (neo_derive HG F L HF p psi Em Hp).
Qed.
Print Assumptions C73_stress.
(** The energy exists: it is a function of the deformation. *)
Theorem C73_energy_exists : forall G, two_or_three G -> forall svd p, svd_ok (G := G) svd -> exists psi, strain_energy p psi.
Proof.
  intros G HG svd p Sv. destruct (elastic_model p) eqn:Em.
  - exists (fun F => let '(U, s, V) := svd F in mu p * sumd (fun k => (ln (vget s k))²) + lambda p / 2 * (sumd (fun k => ln (vget s k)))²).
    intros F HF. rewrite Em. destruct (svd F) as [[U s] V] eqn:E. exists U, s, V. split; [now apply Sv|reflexivity].
  - exists (fun F => mu p / 2 * (sumd (fun i => sumd (fun j => (mget F i j)²)) - INR dim) - mu p * ln (mdet F) + lambda p / 2 * (ln (mdet F))²). intros F HF. rewrite Em. reflexivity.
Qed.
Print Assumptions C73_energy_exists.

(** ** The first Piola-Kirchhoff stress helpers *)
Definition piola_of {G : Geo R} (svd : TM -> TM * TV * TM) (p : Par R) (F : TM) : TM :=
  match elastic_model p with NeoHookean => NeoHookeanPiola p F | Hencky => HenckyPiola svd p F end.
(** P F^T is the Kirchhoff stress. *)
Theorem C73_piola_kirchhoff : forall G, two_or_three G -> forall svd p F, svd_ok (G := G) svd -> 0 < mdet F ->
  elastic_stress p F (mmul (piola_of svd p F) (mtr F)).
Proof.
  intros G HG svd p F Sv HF. pose proof (geolaws G HG) as GL. unfold elastic_stress, piola_of. destruct (elastic_model p) eqn:Em.
  - unfold HenckyPiola. destruct (svd F) as [[U s] V] eqn:E. pose proof (Sv _ _ _ _ E) as S. pose proof (pos_of_det HG _ _ _ _ S ltac:(lra)) as Ps.
    exists U, s, V. split; [exact S|]. split; [exact Ps|]. unfold hencky_stress. rewrite (sv_F _ _ _ _ S) at 1. rewrite !mtr_mul, mtr_tr, mtr_diag.
    rewrite !mmul_assoc. rewrite <- (mmul_assoc (mtr V) V), (proj1 (sv_V _ _ _ _ S)), mmul_id_l. rewrite <- (mmul_assoc _ (mdiag s)). do 2 f_equal.
    assert (T : mtrace (mdiag (vmap (fun s0 => nlog (nabs s0)) s)) = sumd (fun j => vget (vtab (fun k => ln (vget s k))) j)).
    { rewrite mtrace_diag. unfold vsum. apply sumd_ext. intros k Hk. rewrite vget_map, vget_tab by auto. numR. cbn [nabs NumR]. rewrite Rabs_right by (apply Rle_ge, Rlt_le, Ps; auto). reflexivity. }
    rewrite T. set (tr := sumd _). rewrite mmul_scale_l, mmul_add_l, !mmul_scale_l. apply mext. intros i j Hi Hj. rewrite mget_add, !mget_lscale, mget_mul_diag, mget_mul_diag, mget_mul_diag by auto.
    rewrite !mget_diag, !vget_map, !vget_tab by auto. specialize (Ps i Hi) as Pi. rewrite !nofZ_R. numR. cbn [nabs NumR]. destruct (Nat.eqb_spec i j) as [<-|]; [|ring]. rewrite Rabs_right by lra. field. lra.
  - rewrite <- neo_eq by (auto; lra). reflexivity.
Qed.
Print Assumptions C73_piola_kirchhoff.
(** P is the derivative of the energy with respect to the deformation gradient. *)
Theorem C73_piola : forall G, two_or_three G -> forall svd p psi (F H : @TM R G), svd_ok (G := G) svd -> 0 < mdet F -> strain_energy p psi ->
  is_derive (fun t : R => psi (madd F (mlscale t H))) 0 (inner (piola_of svd p F) H).
Proof.
  intros G HG svd p psi F H Sv HF Hp. pose proof (geolaws G HG) as GL. set (L := mmul H (minv F)).
  assert (LF : mmul L F = H) by (unfold L; now rewrite mmul_assoc, minv_l, mmul_id_r by (auto; lra)).
  replace (inner (piola_of svd p F) H) with (inner (mmul (piola_of svd p F) (mtr F)) L).
  - apply is_derive_ext with (fun t => psi (mmul (madd mident (mlscale t L)) F)).
    + assert (Q : forall t : R, psi (mmul (madd mident (mlscale t L)) F) = psi (madd F (mlscale t H))) by (intros t; now rewrite mmul_add_l, mmul_id_l, mmul_scale_l, LF). exact Q.
    + apply C73_stress with p; auto. now apply C73_piola_kirchhoff.
  - rewrite <- !(trace_tr_inner HG). rewrite <- LF. rewrite mtr_mul, !mmul_assoc. reflexivity.
Qed.
Print Assumptions C73_piola.

(** ** Nodal forces *)
(** The internal force at a node is minus the derivative of the elastic energy of the body with
    respect to the displacement of that node. *)
Theorem C73_force : forall G, two_or_three G -> forall p psi l X k, (k < dim)%nat -> strain_energy p psi -> elastic_body p l ->
  is_derive (body_energy p psi l X k) 0 (- internal p l X k).
Proof.
  intros G HG p psi l X k Hk Hp Hl. pose proof (geolaws G HG) as GL. unfold body_energy, internal.
  replace (- (- particle_volume p * Rsum (fun q => sum_axes (fun j => mget (q_tau q) k j * dweight p X (q_x q) j)) l))
    with (particle_volume p * Rsum (fun q => sum_axes (fun j => mget (q_tau q) k j * dweight p X (q_x q) j)) l) by ring.
  apply is_derive_scal. induction Hl as [|q l (Dq & Sq) Hl IH].
  - cbn [Rsum map fold_right]. apply (is_derive_const (V := R_NormedModule) 0).
  - change (is_derive (fun t => psi (displaced p X k t q) + Rsum (fun q => psi (displaced p X k t q)) l) 0 (sum_axes (fun j => mget (q_tau q) k j * dweight p X (q_x q) j) + Rsum (fun q => sum_axes (fun j => mget (q_tau q) k j * dweight p X (q_x q) j)) l)).
    apply (is_derive_plus (V := R_NormedModule)); [|exact IH]. set (L := mtab (fun i j => if Nat.eqb i k then dweight p X (q_x q) j else 0)).
    replace (sum_axes (fun j => mget (q_tau q) k j * dweight p X (q_x q) j)) with (inner (q_tau q) L).
    + apply is_derive_ext with (fun t => psi (mmul (madd mident (mlscale t L)) (q_F q))); [|now apply C73_stress with p].
      assert (Q : forall t : R, psi (mmul (madd mident (mlscale t L)) (q_F q)) = psi (displaced p X k t q)); [|exact Q]. intros t. unfold displaced. do 3 f_equal. apply mext. intros i j Hi Hj. unfold L. rewrite mget_lscale, !mget_tab by auto. destruct (Nat.eqb i k); [reflexivity|ring].
    + unfold inner, L, sum_axes. rewrite <- sumd_Rsum. rewrite <- (sumd_pick (fun i => sumd (fun j => mget (q_tau q) i j * dweight p X (q_x q) j)) k Hk). apply sumd_ext. intros i Hi.
      rewrite (Nat.eqb_sym k i). destruct (Nat.eqb i k) eqn:E; [apply sumd_ext|apply sumd_zero]; intros j Hj; rewrite mget_tab, E by auto; [reflexivity|ring].
Qed.
Print Assumptions C73_force.
(** One time step accelerates every node by gravity and by minus the gradient of the elastic energy. *)
Theorem C73_step : forall G, two_or_three G -> forall svd uabs af p sc s0 s1 n psi,
  0 < dx p -> 0 < particle_mass p -> use_pbc p = false -> use_musl p = false -> valid_sched sc -> well_formed s0 n ->
  advanceStep svd uabs af p sc s0 = Ok s1 -> GridOk p (s_axes s1) -> regular_cloud p (s_axes s1) (p_x (s_p s0)) ->
  strain_energy p psi -> elastic_body p (particles (s_p s0)) ->
  Forall2 (fun X nd => 0 < nd_m nd -> exists free mu,
      (forall k, (k < dim)%nat -> exists dE, is_derive (body_energy p psi (particles (s_p s0)) X k) 0 dE /\
         nd_m nd * (vget free k - projected p (particles (s_p s0)) X k) = s_dt s1 * (nd_m nd * vget (s_grav s1) k - dE)) /\
      boundaryCollision p (s_plates s0) (s_dt s1) mu X free = Ok (nd_v nd))
    (positions (s_axes s1)) (s_nodes s1).
Proof.
  intros G HG svd uabs af p sc s0 s1 n psi Hdx Hm Hp Hmu V W E GO RC Hpsi Hb.
  eapply F2_imp; [|eapply (C59_grid_update G HG svd uabs af p sc s0 s1 n); eauto].
  intros X nd [_ _ NN] Hnd. destruct (NN Hnd) as (free & mu & A & _ & B). exists free, mu. split; [|exact B]. intros k Hk.
  exists (- internal p (particles (s_p s0)) X k). split; [now apply C73_force|]. rewrite (A k Hk). ring.
Qed.
Print Assumptions C73_step.

(** ** Examples *)
(** A particle stretched by the factor 2 along x, in an elastic (Hencky) material; and a Neo-Hookean one. *)
Definition stretched : @TM R (Geo2 R) := mkM2 2 0 0 1.
Definition ex_psi_p : @Par R (Geo2 R) := ex_p (-1/2) false 1000 (e2 0 (-10)) false.
Definition stretched_stress : @TM R (Geo2 R) := mkM2 ((lambda ex_psi_p + 2 * mu ex_psi_p) * ln 2) 0 0 (lambda ex_psi_p * ln 2).
Lemma stretched_det : mdet stretched = 2.
Proof. unfold mdet, stretched. cbn. numR. ring. Qed.
Lemma stretched_hencky : is_hencky_stress ex_psi_p stretched stretched_stress.
Proof.
  exists mident, (mkV2 2 1), mident. split; [apply svdx_ok; unfold stretched; apply svdx_diag; lra|]. split.
  - intros k Hk. cbn in Hk. destruct k as [|[|k]]; [cbn; lra|cbn; lra|lia].
  - unfold hencky_stress. rewrite (mtr_ident (GL := geolaws _ (or_introl eq_refl))), (mmul_id_r (GL := geolaws _ (or_introl eq_refl))), (mmul_id_l (GL := geolaws _ (or_introl eq_refl))).
    unfold stretched_stress. set (l := lambda ex_psi_p). set (m := mu ex_psi_p). clearbody l m. unfold sumd, mdiag. cbn. rewrite ln_1. numR. rewrite ?nofZ_R. numR. f_equal; field.
Qed.
Example C73_ex : exists psi, strain_energy ex_psi_p psi /\ 0 < mdet stretched /\ elastic_stress ex_psi_p stretched stretched_stress /\
  elastic_body ex_psi_p [mkP1 (G := Geo2 R) (e2 (1/2) (1/4)) (e2 1 2) vzero vzero (mkHist 0 0 0 0 0 0) stretched mident stretched_stress] /\
  stretched_stress <> mzero.
Proof.
  destruct (C73_energy_exists _ (or_introl eq_refl) svdx ex_psi_p svdx_ok) as (psi & Hp). exists psi. split; [exact Hp|]. rewrite stretched_det. split; [lra|].
  assert (S : elastic_stress ex_psi_p stretched stretched_stress) by exact stretched_hencky. split; [exact S|]. split.
  - constructor; [|constructor]. cbn [q_F q_tau]. rewrite stretched_det. split; [lra|exact S].
  - intros Z. apply (f_equal (fun m : @TM R (Geo2 R) => m2_11 m)) in Z. revert Z. change (lambda ex_psi_p * ln 2 = m2_11 mzero -> False). unfold lambda, mzero. cbn. rewrite ?nofZ_R. numR. intros Z.
    pose proof (ln_lt_2) as L2. assert (K : 3 / 10 * 1000 / ((1 / 1 + 3 / 10) * (1 / 1 - 2 / 1 * (3 / 10))) = 300 / (52/100)) by field. rewrite K in Z. lra.
Qed.
Example C73_piola_ex : svd_ok (G := Geo2 R) svdx /\ 0 < mdet stretched /\ HenckyPiola svdx ex_psi_p stretched = mkM2 ((lambda ex_psi_p + 2 * mu ex_psi_p) * ln 2 / 2) 0 0 (lambda ex_psi_p * ln 2).
Proof.
  split; [exact svdx_ok|]. split; [rewrite stretched_det; lra|]. unfold HenckyPiola, stretched. rewrite svdx_diag by lra.
  set (l := lambda ex_psi_p). set (m := mu ex_psi_p). clearbody l m.
  rewrite (mtr_ident (GL := geolaws _ (or_introl eq_refl))), (mmul_id_r (GL := geolaws _ (or_introl eq_refl))), (mmul_id_l (GL := geolaws _ (or_introl eq_refl))).
  unfold mtrace, mmul, madd, mlscale, mdiag, vmap, sumd. cbn. rewrite ?nofZ_R. numR. cbn [nabs NumR]. rewrite (Rabs_right 2), (Rabs_right 1), ln_1 by lra. f_equal; field.
Qed.
Example C73_step_ex : forall svd uabs, exists af s1 psi, let p := ex_psi_p in
  let s0 := initial_state p (two_particles (e2 1 2) (e2 (-3) 4) mident mident mzero mzero) [] in
  0 < dx p /\ 0 < particle_mass p /\ use_pbc p = false /\ use_musl p = false /\ valid_sched rev_sched /\ well_formed s0 2 /\
  advanceStep svd uabs af p rev_sched s0 = Ok s1 /\ GridOk p (s_axes s1) /\ regular_cloud p (s_axes s1) (p_x (s_p s0)) /\
  strain_energy p psi /\ elastic_body p (particles (s_p s0)) /\ length (particles (s_p s0)) = 2%nat.
Proof.
  intros. destruct (ex_mech_with svd uabs rev_sched (-1/2) false (e2 0 (-10)) (e2 1 2) (e2 (-3) 4) mident mident mzero mzero [] rev_valid) as (af & s1 & E & GO & RC & _).
  destruct (C73_energy_exists _ (or_introl eq_refl) svdx ex_psi_p svdx_ok) as (psi & Hp).
  exists af, s1, psi. cbv zeta. split; [apply ex_dx|]. split; [apply ex_mass|]. do 2 (split; [reflexivity|]). split; [exact rev_valid|]. split; [apply ex_wf|].
  split; [exact E|]. split; [exact GO|]. split; [exact RC|]. split; [exact Hp|]. split; [|reflexivity].
  assert (K : forall q : P1 R, q_F q = mident -> q_tau q = mzero -> 0 < mdet (q_F q) /\ elastic_stress ex_psi_p (q_F q) (q_tau q)).
  { intros q -> ->. rewrite (mdet_ident _ (or_introl eq_refl)). split; [lra|]. exists mident, (mkV2 1 1), mident. split; [|split].
    - apply svdx_ok. rewrite <- svdx_diag by lra. f_equal. unfold mident. cbn. rewrite ?nofZ_R. f_equal; field.
    - intros k Hk. cbn in Hk. destruct k as [|[|k]]; [cbn; lra|cbn; lra|lia].
    - unfold hencky_stress. rewrite (mtr_ident (GL := geolaws _ (or_introl eq_refl))), (mmul_id_r (GL := geolaws _ (or_introl eq_refl))), (mmul_id_l (GL := geolaws _ (or_introl eq_refl))).
      set (l := lambda ex_psi_p). set (m := mu ex_psi_p). clearbody l m. unfold sumd, mdiag, mzero. cbn. rewrite ln_1. rewrite ?nofZ_R. numR. f_equal; field. }
  repeat constructor; apply K; reflexivity.
Qed.
