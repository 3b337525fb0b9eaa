(** * PlasticProofs: stress of principal strains, and the parts of the return mappings. *)
From Coq Require Import Reals ZArith Lra Lia List Bool.
From Verif Require Import Num NumR Tools Lin Types Transfer Rma Plastic Spec SpecPlastic LinProofs.
Import ListNotations.
Local Open Scope R_scope.

(** Positivity of products and quotients. *)
Ltac rpos := repeat match goal with |- 0 < _ * _ => apply Rmult_lt_0_compat | |- 0 < _ / _ => apply Rdiv_lt_0_compat end; try lra.

Section PP.
  Context {G : Geo R} {GL : GeoLaws G}.

  Lemma dim_R : INR dim = 2 \/ INR dim = 3.
  Proof. destruct gl_dim as [H|H]; rewrite H; cbn; [left|right]; lra. Qed.
  Lemma dim_R_pos : 0 < INR dim. Proof. destruct dim_R as [H|H]; rewrite H; lra. Qed.
  Lemma dimA_R : dimA = INR dim. Proof. unfold dimA. rewrite nofZ_R. now rewrite INR_IZR_INZ. Qed.
  Lemma sumd_const : forall c, sumd (fun _ => c) = INR dim * c.
  Proof. intros. rewrite sumd_Rsum, Rsum_const, seq_length. reflexivity. Qed.

  (** ** Orthogonal conjugation *)
  Lemma orth_tr : forall U, orthogonal U -> orthogonal (mtr U).
  Proof. intros U (A & B). split; rewrite mtr_tr; auto. Qed.
  Lemma orth_mul : forall U V, orthogonal U -> orthogonal V -> orthogonal (mmul U V).
  Proof.
    intros U V (A & B) (C & D). split; rewrite mtr_mul.
    - rewrite mmul_assoc, <- (mmul_assoc (mtr U)), A, mmul_id_l. auto.
    - rewrite mmul_assoc, <- (mmul_assoc V), D, mmul_id_l. auto.
  Qed.
  Lemma trace_conj : forall U a, orthogonal U -> mtrace (mmul (mmul U a) (mtr U)) = mtrace a.
  Proof. intros U a (H & _). rewrite mtrace_mul_comm, <- mmul_assoc, H, mmul_id_l. auto. Qed.
  Lemma mdd_conj : forall U a, orthogonal U -> mdd (mmul (mmul U a) (mtr U)) = mdd a.
  Proof.
    intros U a H. rewrite !mdd_trace. pose proof H as (A & B).
    replace (mmul (mtr (mmul (mmul U a) (mtr U))) (mmul (mmul U a) (mtr U))) with (mmul (mmul U (mmul (mtr a) a)) (mtr U)); [now apply trace_conj|].
    rewrite !mtr_mul, mtr_tr, !mmul_assoc. do 2 f_equal. rewrite <- !mmul_assoc. rewrite A, mmul_id_l. reflexivity.
  Qed.
  Lemma mmul_scale_l : forall c a b, mmul (mlscale c a) b = mlscale c (mmul a b).
  Proof. intros. apply mext. intros i j Hi Hj. autorewrite with geo. rewrite <- sumd_scal. apply sumd_ext. intros k Hk. autorewrite with geo. ring. Qed.
  Lemma mmul_scale_r : forall c a b, mmul a (mlscale c b) = mlscale c (mmul a b).
  Proof. intros. apply mext. intros i j Hi Hj. autorewrite with geo. rewrite <- sumd_scal. apply sumd_ext. intros k Hk. autorewrite with geo. ring. Qed.
  Lemma conj_add_id : forall U a s, orthogonal U -> madd (mmul (mmul U a) (mtr U)) (mlscale s mident) = mmul (mmul U (madd a (mlscale s mident))) (mtr U).
  Proof.
    intros U a s (_ & B). rewrite mmul_add_r, mmul_add_l. f_equal. rewrite mmul_scale_r, mmul_id_r, mmul_scale_l, B. reflexivity.
  Qed.
  Lemma mdd_diag : forall v, mdd (mdiag v) = vsqnorm v.
  Proof.
    intros. unfold mdd, vsqnorm, vdot. apply sumd_ext. intros i Hi.
    rewrite (sumd_ext _ (fun j => if Nat.eqb i j then vget v j * vget v j else 0)); [now rewrite (sumd_pick (fun j => vget v j * vget v j))|].
    intros j Hj. autorewrite with geo. destruct (Nat.eqb_spec i j); [subst|]; numR; ring.
  Qed.

  (** ** Traces and deviators of principal strains *)
  Definition dev (e : TV) : TV := vsub e (lscale (vsum e / INR dim) vones).
  Lemma vget_ones : forall k, (k < dim)%nat -> vget vones k = 1.
  Proof. intros k Hk. unfold vones. rewrite vget_tab, nofZ_R; auto. Qed.
  Lemma vget_dev : forall e k, (k < dim)%nat -> vget (dev e) k = vget e k - vsum e / INR dim.
  Proof. intros. unfold dev. autorewrite with geo. rewrite vget_ones by auto. ring. Qed.
  Lemma vsum_dev : forall e, vsum (dev e) = 0.
  Proof.
    intros. unfold vsum at 1. rewrite (sumd_ext _ (fun k => vget e k - vsum e / INR dim)) by (intros; now apply vget_dev).
    rewrite sumd_minus, sumd_const. change (sumd (vget e)) with (vsum e). pose proof dim_R_pos. field. lra.
  Qed.
  Lemma vnorm_lscale : forall c v, vnorm (lscale c v) = Rabs c * vnorm v.
  Proof.
    intros. unfold vnorm. numR. rewrite <- sqrt_Rsqr_abs, <- sqrt_mult; [|apply Rle_0_sqr|apply vsqnorm_nonneg].
    f_equal. unfold vsqnorm. rewrite vdot_lscale_l, vdot_lscale_r. unfold Rsqr. ring.
  Qed.
  (** A vector with given trace and deviator. *)
  Lemma vsum_combo : forall a d b, vsum d = 0 -> vsum (vadd (lscale a d) (lscale b vones)) = INR dim * b.
  Proof.
    intros a d b H. unfold vsum. rewrite (sumd_ext _ (fun k => a * vget d k + b)).
    - rewrite sumd_plus, (sumd_scal a (vget d)), sumd_const. change (sumd (vget d)) with (vsum d). rewrite H. ring.
    - intros k Hk. autorewrite with geo. rewrite vget_ones by auto. ring.
  Qed.
  Lemma dev_combo : forall a d b, vsum d = 0 -> dev (vadd (lscale a d) (lscale b vones)) = lscale a d.
  Proof.
    intros a d b H. apply vext. intros k Hk. rewrite vget_dev, vsum_combo by auto. autorewrite with geo. rewrite vget_ones by auto.
    pose proof dim_R_pos. field. lra.
  Qed.

  (** ** Stress of a principal strain *)
  Variable p : Par R.
  Lemma bulk_R : bulkK p = lambda p + 2 * mu p / INR dim.
  Proof. unfold bulkK. rewrite dimA_R, nofZ_R. reflexivity. Qed.
  Lemma principal_eq : forall e, principal_stress p e = vadd (lscale (2 * mu p) (dev e)) (lscale (bulkK p * vsum e) vones).
  Proof.
    intros e. apply vext. intros k Hk. unfold principal_stress. autorewrite with geo. rewrite vget_dev, vget_ones, bulk_R, nofZ_R by auto. numR.
    pose proof dim_R_pos. field. lra.
  Qed.
  Lemma hencky_tau_eq : forall U e, hencky_tau p U e = hencky_stress p U e.
  Proof.
    intros. unfold hencky_tau, hencky_stress. do 3 f_equal. apply vext. intros k Hk. unfold principal_stress. autorewrite with geo.
    rewrite vget_tab, vget_ones, nofZ_R by auto. numR. unfold vsum. ring.
  Qed.
  Lemma pressure_trace : forall t, pressure t = - mtrace t / INR dim.
  Proof. reflexivity. Qed.
  Lemma shear_mdd : forall c t, shear c t = c * sqrt (mdd (madd t (mlscale (pressure t) mident))).
  Proof.
    intros. unfold shear. do 2 f_equal. apply sumd_ext. intros i Hi. apply sumd_ext. intros j Hj. autorewrite with geo. unfold Rsqr.
    destruct (Nat.eqb i j); numR; ring.
  Qed.
  Lemma stress_pressure : forall U e, orthogonal U -> pressure (hencky_tau p U e) = - bulkK p * vsum e.
  Proof.
    intros U e H. rewrite pressure_trace. unfold hencky_tau. rewrite trace_conj by auto. rewrite mtrace_diag, principal_eq, vsum_combo by apply vsum_dev.
    pose proof dim_R_pos. field. lra.
  Qed.
  Lemma stress_shear : forall U e c, orthogonal U -> 0 <= c -> 0 <= mu p -> shear c (hencky_tau p U e) = 2 * c * mu p * vnorm (dev e).
  Proof.
    intros U e c H Hc Hm. rewrite shear_mdd, stress_pressure by auto. unfold hencky_tau. rewrite conj_add_id, mdd_conj by auto.
    replace (madd (mdiag (principal_stress p e)) (mlscale (- bulkK p * vsum e) mident)) with (mdiag (lscale (2 * mu p) (dev e))).
    - rewrite mdd_diag. change (sqrt (vsqnorm (lscale (2 * mu p) (dev e)))) with (vnorm (lscale (2 * mu p) (dev e))). rewrite vnorm_lscale, Rabs_pos_eq by lra. ring.
    - rewrite principal_eq. apply mext. intros i j Hi Hj. autorewrite with geo. rewrite vget_ones by auto. destruct (Nat.eqb i j); ring.
  Qed.

  (** ** Positive constants *)
  Hypothesis El : elastic p.
  Lemma mu_pos : 0 < mu p.
  Proof. destruct El as (A & B & C). unfold mu. rewrite !nofZ_R. numR. apply Rdiv_lt_0_compat; lra. Qed.
  Lemma K_pos : 0 < bulkK p.
  Proof.
    destruct El as (A & B & C). rewrite bulk_R. unfold lambda, mu. rewrite !nofZ_R. numR.
    replace (nu p * young p / ((1 + nu p) * (1 - 2 * nu p)) + 2 * (young p / (2 * (1 + nu p))) / INR dim)
      with (young p * ((nu p * INR dim + (1 - 2 * nu p)) / (INR dim * (1 + nu p) * (1 - 2 * nu p)))) by (pose proof dim_R_pos; field; lra).
    apply Rmult_lt_0_compat; auto. apply Rdiv_lt_0_compat; [destruct dim_R as [Q|Q]; rewrite Q; lra|].
    pose proof dim_R_pos. rpos.
  Qed.
  Lemma emu_pos : 0 < e_mu_prefac p.
  Proof. pose proof mu_pos. destruct El as (A & B & C). unfold e_mu_prefac. rewrite !nofZ_R. numR. rpos. Qed.
  Lemma fmu_pos : 0 < f_mu_prefac p.
  Proof. pose proof mu_pos. destruct El as (A & B & C). unfold f_mu_prefac. rewrite !nofZ_R. numR. rpos. Qed.
  Lemma dpre_pos : 0 < d_prefac p.
  Proof. destruct El as (A & B & C). unfold d_prefac. rewrite !nofZ_R. numR. apply Rdiv_lt_0_compat; lra. Qed.
  Lemma dpre_inv : 1 / d_prefac p = q_prefac p.
  Proof. destruct El as (A & B & C). unfold d_prefac. rewrite !nofZ_R. numR. field. lra. Qed.
  Lemma emu_R : e_mu_prefac p = 2 * q_prefac p * mu p. Proof. unfold e_mu_prefac. now rewrite nofZ_R. Qed.
  Lemma fmu_R : f_mu_prefac p = q_prefac p * e_mu_prefac p. Proof. rewrite emu_R. unfold f_mu_prefac. rewrite nofZ_R. numR. ring. Qed.

  (** ** The trial state *)
  Lemma trial_spec : forall s, (forall k, (k < dim)%nat -> 0 <= vget s k) ->
    t_e (trial s) = log_strain s /\ t_tr (trial s) = vsum (log_strain s) /\ t_n (trial s) = vnorm (dev (log_strain s)) /\
    lscale (t_n (trial s)) (t_dir (trial s)) = dev (log_strain s) /\ vsum (t_dir (trial s)) = 0 /\
    vnorm (t_dir (trial s)) = (if Rltb 0 (t_n (trial s)) then 1 else 0).
  Proof.
    intros s Hs.
    assert (E : t_e (trial s) = log_strain s).
    { unfold trial, log_strain. cbn [t_e]. apply vext. intros k Hk. rewrite vget_map, vget_tab by auto. rewrite cmax_R. numR. rewrite Rabs_pos_eq by auto. reflexivity. }
    split; [exact E|]. assert (E' : t_tr (trial s) = vsum (log_strain s)) by (rewrite <- E; reflexivity). split; [exact E'|].
    assert (N : t_n (trial s) = vnorm (dev (log_strain s))) by (rewrite <- E; unfold dev; rewrite <- dimA_R; reflexivity). split; [exact N|].
    assert (D : t_dir (trial s) = if Rltb 0 (t_n (trial s)) then vdivs (dev (log_strain s)) (t_n (trial s)) else dev (log_strain s)).
    { rewrite <- E. unfold dev. rewrite <- dimA_R. unfold trial; cbn [t_dir t_n t_e]. rewrite nofZ_R. reflexivity. }
    rewrite D, N. set (d := dev (log_strain s)). pose proof (vnorm_nonneg d) as Nn.
    destruct (Rltb_spec 0 (vnorm d)) as [P|P].
    - repeat split.
      + apply vext. intros k Hk. autorewrite with geo. field. lra.
      + unfold vsum. rewrite (sumd_ext _ (fun k => vget d k * (/ vnorm d))) by (intros; autorewrite with geo; reflexivity). rewrite sumd_scalr. change (sumd (vget d)) with (vsum d).
        unfold d. rewrite vsum_dev. ring.
      + replace (vdivs d (vnorm d)) with (lscale (/ vnorm d) d) by (apply vext; intros; autorewrite with geo; unfold Rdiv; ring).
        rewrite vnorm_lscale, Rabs_pos_eq; [field; lra|]. apply Rlt_le, Rinv_0_lt_compat. lra.
    - assert (Z : vnorm d = 0) by lra. assert (d = vzero) as ->.
      { apply vsqnorm_0_eq. rewrite <- vnorm_sq, Z. ring. }
      repeat split; [| |exact vnorm_zero].
      + apply vext. intros k Hk. autorewrite with geo. ring.
      + unfold vsum. apply sumd_zero. intros. now autorewrite with geo.
  Qed.

  (** The strains the models return. *)
  Record TrOk (t : Tr R) : Prop := {
    to_tr : t_tr t = vsum (t_e t); to_n : t_n t = vnorm (dev (t_e t)); to_dev : lscale (t_n t) (t_dir t) = dev (t_e t);
    to_dir : vsum (t_dir t) = 0; to_dirn : vnorm (t_dir t) = (if Rltb 0 (t_n t) then 1 else 0) }.
  Lemma trial_ok : forall s, (forall k, (k < dim)%nat -> 0 <= vget s k) -> TrOk (trial s) /\ t_e (trial s) = log_strain s.
  Proof. intros s Hs. destruct (trial_spec s Hs) as (A & B & C & D & E & F). split; [split; congruence|auto]. Qed.
  Lemma t_e_combo : forall t, TrOk t -> t_e t = vadd (lscale (t_n t) (t_dir t)) (lscale (t_tr t / INR dim) vones).
  Proof.
    intros t T. rewrite (to_dev _ T). apply vext. intros k Hk. autorewrite with geo. rewrite vget_dev, vget_ones, (to_tr _ T) by auto. ring.
  Qed.
  (** a dir + b/dim 1: trace b, deviator of norm |a| (0 if the trial deviator vanishes). *)
  Definition combo (t : Tr R) (a b : R) : TV := vadd (lscale a (t_dir t)) (lscale (b / INR dim) vones).
  Lemma combo_sum : forall t a b, TrOk t -> vsum (combo t a b) = b.
  Proof. intros t a b T. unfold combo. rewrite vsum_combo by apply (to_dir _ T). pose proof dim_R_pos. field. lra. Qed.
  Lemma combo_dev : forall t a b, TrOk t -> vnorm (dev (combo t a b)) = if Rltb 0 (t_n t) then Rabs a else 0.
  Proof.
    intros t a b T. unfold combo. rewrite dev_combo by apply (to_dir _ T). rewrite vnorm_lscale, (to_dirn _ T). destruct (Rltb_spec 0 (t_n t)); ring.
  Qed.
  Lemma e_combo : forall t, TrOk t -> t_e t = combo t (t_n t) (t_tr t). Proof. exact t_e_combo. Qed.
  Lemma back_combo : forall t dg, TrOk t -> shear_back p t dg = combo t (t_n t - q_prefac p * dg) (t_tr t).
  Proof.
    intros t dg T. unfold shear_back. rewrite nofZ_R. numR. rewrite dpre_inv, (t_e_combo t T). unfold combo. apply vext. intros k Hk. autorewrite with geo. ring.
  Qed.
  Lemma iso_combo : forall t pp, TrOk t -> iso p pp = combo t 0 (- pp / bulkK p).
  Proof.
    intros t pp T. unfold iso. rewrite dimA_R. unfold combo. apply vext. intros k Hk. autorewrite with geo. rewrite vget_ones by auto. numR. pose proof K_pos. pose proof dim_R_pos. field. lra.
  Qed.
  (** Stress of such a strain. *)
  Lemma combo_stress : forall U t a b, orthogonal U -> TrOk t -> (t_n t = 0 -> a = 0) ->
    pressure (hencky_tau p U (combo t a b)) = - bulkK p * b /\ shear (q_prefac p) (hencky_tau p U (combo t a b)) = e_mu_prefac p * Rabs a.
  Proof.
    intros U t a b H T Ha. pose proof mu_pos. destruct El as (_ & _ & Hq). split.
    - rewrite stress_pressure, combo_sum by auto. reflexivity.
    - rewrite stress_shear, combo_dev, emu_R by (auto; lra). destruct (Rltb_spec 0 (t_n t)) as [Q|Q]; [reflexivity|].
      assert (t_n t = 0) by (pose proof (vnorm_nonneg (dev (t_e t))); rewrite <- (to_n _ T) in *; lra). rewrite Ha, Rabs_R0 by auto. ring.
  Qed.
  Lemma t_n_nonneg : forall t, TrOk t -> 0 <= t_n t.
  Proof. intros t T. rewrite (to_n _ T). apply vnorm_nonneg. Qed.
End PP.
