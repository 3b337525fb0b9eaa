(** * StressProofs: isotropic functions of the deformation, objectivity of the stress update. *)
From Coq Require Import Reals ZArith Lra Lia List Bool.
From Verif Require Import Num NumR Tools Lin Types Transfer Rma Plastic Spec SpecPlastic LinProofs ResProofs PlasticProofs PlasticModels PlasticGlue MaterialStep.
Import ListNotations.
Local Open Scope R_scope.

Lemma minv_l : forall G, two_or_three G -> forall a : TM, mdet a <> 0 -> mmul (minv a) a = mident.
Proof.
  intros G [-> | ->] a; unfold minv, madj, mdivs, mcof3; brute; intros D.
  - f_equal; field; lra.
  - f_equal; f_equal; field; lra.
Qed.

Section Spectral.
  Context {G : Geo R} {GL : GeoLaws G}.
  Definition fdiag (f : R -> R) (d : TV) : TM := mdiag (vtab (fun k => f (vget d k))).
  Definition conj (U a : TM) : TM := mmul (mmul U a) (mtr U).
  Lemma mget_mul_diag : forall W d i j, (i < dim)%nat -> (j < dim)%nat -> mget (mmul W (mdiag d)) i j = mget W i j * vget d j.
  Proof.
    intros W d i j Hi Hj. rewrite mget_mul by auto. rewrite <- (sumd_pick (fun k => mget W i k * vget d k) j Hj). apply sumd_ext.
    intros k Hk. rewrite mget_diag by auto. rewrite (Nat.eqb_sym k j). destruct (Nat.eqb_spec j k) as [->|]; ring.
  Qed.
  Lemma mget_diag_mul : forall W d i j, (i < dim)%nat -> (j < dim)%nat -> mget (mmul (mdiag d) W) i j = vget d i * mget W i j.
  Proof.
    intros W d i j Hi Hj. rewrite mget_mul by auto. rewrite <- (sumd_pick (fun k => vget d k * mget W k j) i Hi). apply sumd_ext.
    intros k Hk. rewrite mget_diag by auto. destruct (Nat.eqb_spec i k) as [->|]; ring.
  Qed.
  Lemma diag_commute : forall f W d d', mmul W (mdiag d) = mmul (mdiag d') W -> mmul W (fdiag f d) = mmul (fdiag f d') W.
  Proof.
    intros f W d d' H. apply mext. intros i j Hi Hj. unfold fdiag. rewrite mget_mul_diag, mget_diag_mul, !vget_tab by auto.
    assert (E : mget W i j * vget d j = vget d' i * mget W i j) by (rewrite <- mget_mul_diag, <- mget_diag_mul by auto; now rewrite H).
    destruct (Req_dec (mget W i j) 0) as [Z|Z]; [rewrite Z; ring|]. replace (vget d' i) with (vget d j); [ring|].
    apply Rmult_eq_reg_l with (mget W i j); [lra|auto].
  Qed.
  (** U f(d) U^T depends on U d U^T only. *)
  Lemma spectral : forall f U d U' d', orthogonal U -> orthogonal U' -> conj U (mdiag d) = conj U' (mdiag d') -> conj U (fdiag f d) = conj U' (fdiag f d').
  Proof.
    intros f U d U' d' (HU1 & HU2) (HV1 & HV2) H. unfold conj in *.
    assert (C : mmul (mmul (mtr U') U) (mdiag d) = mmul (mdiag d') (mmul (mtr U') U)).
    { assert (X : mmul (mtr U') (mmul (mmul (mmul U (mdiag d)) (mtr U)) U) = mmul (mtr U') (mmul (mmul (mmul U' (mdiag d')) (mtr U')) U)) by now rewrite H.
      rewrite !mmul_assoc in X. rewrite HU1, mmul_id_r in X. rewrite <- (mmul_assoc (mtr U') U'), HV1, mmul_id_l in X. now rewrite mmul_assoc. }
    apply (diag_commute f) in C.
    assert (E : U = mmul U' (mmul (mtr U') U)) by (rewrite <- mmul_assoc, HV2; symmetry; apply mmul_id_l).
    rewrite E at 1. rewrite !mmul_assoc in *. rewrite <- (mmul_assoc U (fdiag f d)). rewrite <- (mmul_assoc (mtr U')), C.
    rewrite !mmul_assoc, HU2, mmul_id_r. reflexivity.
  Qed.
  Lemma fdiag_mul : forall f g d, mmul (fdiag f d) (fdiag g d) = fdiag (fun x => f x * g x) d.
  Proof.
    intros. unfold fdiag. apply mext. intros i j Hi Hj. rewrite mget_mul_diag by auto. rewrite !mget_diag by auto.
    rewrite !vget_tab by auto. destruct (Nat.eqb_spec i j) as [->|]; ring.
  Qed.
  Lemma fdiag_id : forall d, fdiag (fun x => x) d = mdiag d.
  Proof. intros. unfold fdiag. f_equal. apply vext. intros k Hk. now rewrite vget_tab. Qed.
  Lemma fdiag_ext : forall f g d, (forall k, (k < dim)%nat -> f (vget d k) = g (vget d k)) -> fdiag f d = fdiag g d.
  Proof. intros f g d H. unfold fdiag. f_equal. apply vext. intros k Hk. rewrite !vget_tab by auto. auto. Qed.
  Lemma fdiag_comp : forall f g d, fdiag f (vtab (fun k => g (vget d k))) = fdiag (fun x => f (g x)) d.
  Proof. intros. unfold fdiag. f_equal. apply vext. intros k Hk. now rewrite !vget_tab. Qed.
  Lemma conj_mul : forall U a b, orthogonal U -> mmul (conj U a) (conj U b) = conj U (mmul a b).
  Proof. intros U a b (H1 & _). unfold conj. rewrite !mmul_assoc. rewrite <- (mmul_assoc (mtr U) U), H1, mmul_id_l. reflexivity. Qed.

  (** Two singular value decompositions of F and R F. *)
  Variables (Q F U V U' V' : TM) (s s' : TV).
  Hypothesis HQ : orthogonal Q.
  Hypothesis S1 : is_svd F U s V.
  Hypothesis S2 : is_svd (mmul Q F) U' s' V'.
  Lemma cauchy_green : conj U' (mdiag (vtab (fun k => (vget s' k)²))) = conj Q (conj U (mdiag (vtab (fun k => (vget s k)²)))).
  Proof.
    assert (K : forall A B (d : TV) C, is_svd A B d C -> mmul A (mtr A) = conj B (mdiag (vtab (fun k => (vget d k)²)))).
    { intros A B d C [HB (HC & _) HA _]. rewrite HA. rewrite !mtr_mul, mtr_tr, mtr_diag. unfold conj. rewrite !mmul_assoc. rewrite <- (mmul_assoc (mtr C) C), HC, mmul_id_l.
      rewrite <- (mmul_assoc (mdiag d) (mdiag d)). do 2 f_equal.
      rewrite <- !(fdiag_id d), fdiag_mul. reflexivity. }
    rewrite <- (K _ _ _ _ S2), <- (K _ _ _ _ S1). unfold conj. rewrite mtr_mul, !mmul_assoc. reflexivity.
  Qed.
  Lemma conj_conj : forall a, conj Q (conj U a) = conj (mmul Q U) a.
  Proof. intros. unfold conj. rewrite mtr_mul, !mmul_assoc. reflexivity. Qed.
  (** Isotropic functions of the stretch rotate with Q. *)
  Lemma isotropic : forall f : R -> R, conj U' (fdiag f s') = conj Q (conj U (fdiag f s)).
  Proof.
    intros f. assert (HU := sv_U _ _ _ _ S1). assert (HU' := sv_U _ _ _ _ S2).
    pose proof (spectral (fun x => f (sqrt x)) U' (vtab (fun k => (vget s' k)²)) (mmul Q U) (vtab (fun k => (vget s k)²)) HU' (orth_mul _ _ HQ HU)) as H.
    rewrite <- conj_conj in H. specialize (H cauchy_green). rewrite <- conj_conj in H. rewrite !(fdiag_comp _ Rsqr) in H.
    rewrite (fdiag_ext _ f s') in H by (intros k Hk; rewrite sqrt_Rsqr; [auto|apply (sv_s _ _ _ _ S2); auto]).
    rewrite (fdiag_ext _ f s) in H by (intros k Hk; rewrite sqrt_Rsqr; [auto|apply (sv_s _ _ _ _ S1); auto]). exact H.
  Qed.
  Lemma isotropic_sum : forall f : R -> R, sumd (fun k => f (vget s' k)) = sumd (fun k => f (vget s k)).
  Proof.
    intros f. assert (K : forall d, mtrace (fdiag f d) = sumd (fun k => f (vget d k))).
    { intros d. unfold fdiag. rewrite mtrace_diag. unfold vsum. apply sumd_ext. intros k Hk. now rewrite vget_tab. }
    rewrite <- !K. assert (HU := sv_U _ _ _ _ S1). assert (HU' := sv_U _ _ _ _ S2).
    pose proof (isotropic f) as E. apply (f_equal mtrace) in E. unfold conj in E. now rewrite !trace_conj in E by auto.
  Qed.
  (** U f(s) V^T rotates with Q, for invertible F. *)
  Lemma isotropic_F : (forall k, (k < dim)%nat -> 0 < vget s k) -> (forall k, (k < dim)%nat -> 0 < vget s' k) ->
    forall f, mmul (mmul U' (fdiag f s')) (mtr V') = mmul Q (mmul (mmul U (fdiag f s)) (mtr V)).
  Proof.
    intros P P' f.
    assert (K : forall A B d C, is_svd A B d C -> (forall k, (k < dim)%nat -> 0 < vget d k) -> mmul (mmul B (fdiag f d)) (mtr C) = mmul (conj B (fdiag (fun x => f x * / x) d)) A).
    { intros A B d C [(HB & _) HC HA _] Pd. rewrite HA. unfold conj. rewrite !mmul_assoc. rewrite <- (mmul_assoc (mtr B) B), HB, mmul_id_l.
      rewrite <- (mmul_assoc (fdiag _ d) (mdiag d)), <- (fdiag_id d), fdiag_mul. do 2 f_equal. apply fdiag_ext. intros k Hk. specialize (Pd k Hk). field. lra. }
    rewrite (K _ _ _ _ S2 P'), (K _ _ _ _ S1 P), isotropic. unfold conj at 1. rewrite !mmul_assoc. rewrite <- (mmul_assoc (mtr Q) Q), (proj1 HQ), mmul_id_l. reflexivity.
  Qed.
End Spectral.

(** ** Return mappings are isotropic: their result depends on the invariants of the trial strain,
    and the new strain is a combination of the old one, its direction and the identity. *)
Section Iso.
  Context {G : Geo R} {GL : GeoLaws G}.
  Variable uabs : R -> R.
  Variable p : Par R.
  Variable dt : R.
  Definition lin (c a b : R) (e d : TV) : TV := vadd (vadd (lscale c e) (lscale a d)) (lscale b vones).
  Definition iso_form (f : TV -> TV -> res (MR R)) : Prop :=
    (forall e d r, f e d <> Ok r) \/ exists c a b u h n x, forall e d, f e d = Ok (mkMR (lin c a b e d) u h n x).
  Lemma form_keep : forall u h n x, iso_form (fun e d => Ok (mkMR e u h n x)).
  Proof. intros. right. exists 1, 0, 0, u, h, n, x. intros e d. do 2 f_equal. unfold lin. vx. numR. ring. Qed.
  Lemma form_back : forall tr n0 dg u h n x, iso_form (fun e d => Ok (mkMR (shear_back p (mkTr e tr d n0) dg) u h n x)).
  Proof. intros. right. exists 1, (- (1 / d_prefac p * dg)), 0, u, h, n, x. intros e d. do 2 f_equal. unfold lin, shear_back. cbn [t_e t_dir]. rewrite nofZ_R. vx. numR. ring. Qed.
  Lemma form_vm : forall dg u h n x, iso_form (fun e d => Ok (mkMR (vsub e (lscale dg d)) u h n x)).
  Proof. intros. right. exists 1, (- dg), 0, u, h, n, x. intros e d. do 2 f_equal. unfold lin. vx. numR. ring. Qed.
  Lemma form_iso : forall v u h n x, (exists b, v = lscale b vones) -> iso_form (fun e d => Ok (mkMR v u h n x)).
  Proof. intros v u h n x (b & ->). right. exists 0, 0, b, u, h, n, x. intros e d. do 2 f_equal. unfold lin. vx. numR. ring. Qed.
  Lemma form_mcc : forall a b u h n x, iso_form (fun e d => Ok (mkMR (vadd (lscale a d) (lscale b vones)) u h n x)).
  Proof. intros. right. exists 0, a, b, u, h, n, x. intros e d. do 2 f_equal. unfold lin. vx. numR. ring. Qed.
  Lemma form_mui : forall a b u h n x, iso_form (fun e d => Ok (mkMR (vsub (lscale a d) (lscale b vones)) u h n x)).
  Proof. intros. right. exists 0, a, (- b), u, h, n, x. intros e d. do 2 f_equal. unfold lin. vx. numR. ring. Qed.
  Lemma mcc_iso : forall tr n0 h, iso_form (fun e d => pl_MCC uabs p dt (mkTr e tr d n0) h).
  Proof.
    intros. unfold pl_MCC. cbn [t_e t_tr t_dir t_n]. cbv zeta. destruct (mcc_rma _ _ _ _ _ _) as [[r pc]|]; [|left; discriminate].
    destruct (rm_plastic r); [|apply form_keep]. match goal with |- context [let '(_, _) := ?m in _] => destruct m as [[b q] ex] end.
    match goal with |- context [bind ?m _] => destruct m as [h2| |] end; cbn [bind]; [apply form_mcc|left; discriminate|left; discriminate].
  Qed.
  Lemma return_iso : forall tr n0 h, iso_form (fun e d => return_map uabs p dt (mkTr e tr d n0) h).
  Proof.
    intros tr n0 h. unfold return_map. destruct (plastic_model p) eqn:Pm.
    - apply form_keep.
    - unfold pl_VM. cbn [t_e t_tr t_dir t_n]. cbv zeta. destruct (nltb _ _); [apply form_vm|apply form_keep].
    - unfold pl_DP. cbn [t_e t_tr t_dir t_n]. cbv zeta. destruct (nltb _ _); [apply form_iso; eexists; reflexivity|]. destruct (nltb _ _); [apply form_back|apply form_keep].
    - unfold pl_DPSoft. cbn [t_e t_tr t_dir t_n]. cbv zeta. destruct (nleb _ _); [apply form_iso; eexists; reflexivity|].
      destruct (_ && _); [apply form_keep|]. destruct (_ && _); [|apply form_keep]. destruct (nltb _ _); [apply form_iso; eexists; reflexivity|apply form_back].
    - apply mcc_iso.
    - unfold pl_VMVisc. cbn [t_e t_tr t_dir t_n]. cbv zeta. destruct (nltb _ _); [apply form_keep|]. destruct (nltb _ _); [|apply form_keep].
      match goal with |- context [let '(_, _) := ?m in _] => destruct m as [dg ex] end. apply form_back.
    - unfold pl_DPVisc. cbn [t_e t_tr t_dir t_n]. cbv zeta. destruct (nltb _ _); [apply form_iso; eexists; reflexivity|].
      destruct (_ && _); [|apply form_keep]. match goal with |- context [let '(_, _) := ?m in _] => destruct m as [dg ex] end. apply form_back.
    - apply mcc_iso.
    - unfold pl_DPMui. cbn [t_e t_tr t_dir t_n]. cbv zeta. destruct (nltb _ _); [apply form_iso; eexists; reflexivity|].
      destruct (_ && _); [apply form_back|apply form_keep].
    - unfold pl_MCCMui. cbn [t_e t_tr t_dir t_n]. cbv zeta. destruct (mcc_rma _ _ _ _ _ _) as [[r pc]|]; [|left; discriminate].
      destruct (rm_plastic r); [|apply form_keep]. match goal with |- context [let '(_, _) := ?m in _] => destruct m as [q ex] end. apply form_mui.
  Qed.
End Iso.

(** ** Objectivity *)
Section Objective.
  Context {G : Geo R} {GL : GeoLaws G}.
  Variable svd : TM -> TM * TV * TM.
  Hypothesis Sv : svd_ok svd.
  Variable uabs : R -> R.
  Definition fv (f : R -> R) (s : TV) : TV := vtab (fun k => f (vget s k)).
  Definition lf (x : R) : R := ln (Rmax (Rabs x) (1/10000)).
  Definition tr_of (s : TV) : R := sumd (fun k => lf (vget s k)).
  Definition df (tr n x : R) : R := if Rltb 0 n then (lf x - tr / INR dim) / n else lf x - tr / INR dim.
  Definition n_of (s : TV) : R := sqrt (sumd (fun k => (lf (vget s k) - tr_of s / INR dim) * (lf (vget s k) - tr_of s / INR dim))).
  Lemma trial_form : forall s, trial s = mkTr (fv lf s) (tr_of s) (fv (df (tr_of s) (n_of s)) s) (n_of s).
  Proof.
    intros s. unfold trial. cbv zeta.
    assert (E1 : vmap (fun s0 => nlog (cmax (nabs s0) (nofQ 1 10000))) s = fv lf s).
    { apply vext. intros k Hk. unfold fv. rewrite vget_map, vget_tab by auto. unfold lf. rewrite cmax_R. rewrite nofQ_R. reflexivity. }
    rewrite E1. assert (E2 : vsum (fv lf s) = tr_of s) by (unfold vsum, tr_of, fv; apply sumd_ext; intros k Hk; now rewrite vget_tab).
    rewrite E2. rewrite dimA_R.
    assert (E3 : vsub (fv lf s) (lscale (tr_of s / INR dim) vones) = fv (fun x => lf x - tr_of s / INR dim) s).
    { apply vext. intros k Hk. unfold fv. rewrite vget_sub, vget_lscale, !vget_tab, vget_ones by auto. ring. }
    replace (ndiv (tr_of s) (INR dim)) with (tr_of s / INR dim) by reflexivity. rewrite E3.
    assert (E4 : vnorm (fv (fun x => lf x - tr_of s / INR dim) s) = n_of s).
    { unfold vnorm, vsqnorm, vdot, n_of. numR. f_equal. apply sumd_ext. intros k Hk. unfold fv. now rewrite vget_tab. }
    rewrite E4. f_equal. rewrite nofZ_R. numR. unfold df. destruct (Rltb 0 (n_of s)); apply vext; intros k Hk; unfold fv; rewrite ?vget_divs, !vget_tab by auto; reflexivity.
  Qed.
  Lemma lin_form : forall c a b f g (s : TV), lin c a b (fv f s) (fv g s) = fv (fun x => c * f x + a * g x + b) s.
  Proof. intros. unfold lin. apply vext. intros k Hk. unfold fv. rewrite !vget_add, !vget_lscale, !vget_tab, vget_ones by auto. ring. Qed.
  Lemma pos_of_det : two_or_three G -> forall F U s V, is_svd F U s V -> mdet F <> 0 -> forall k, (k < dim)%nat -> 0 < vget s k.
  Proof.
    intros HG F U s V S D k Hk. pose proof (sv_s _ _ _ _ S k Hk) as P. destruct P as [P|P]; [auto|]. exfalso. apply D. rewrite (sv_F _ _ _ _ S), !mdet_mul, mdet_diag by auto.
    assert (Z : fold_right Rmult 1 (map (vget s) (seq 0 dim)) = 0); [|rewrite Z; ring].
    assert (I : In k (seq 0 dim)) by (apply in_seq; lia). revert I. generalize (seq 0 dim). intros l. induction l as [|x l IH]; intros []; cbn.
    - subst x. rewrite <- P. ring.
    - rewrite IH by auto. ring.
  Qed.
  Lemma neo_eq : two_or_three G -> forall p F, mdet F <> 0 -> neo_tau p F = neo_hookean_stress p F.
  Proof.
    intros HG p F D. unfold neo_tau, neo_hookean_stress. cbv zeta.
    assert (I : mmul (minv (mtr F)) (mtr F) = mident) by (apply minv_l; [auto|now rewrite mdet_tr]).
    rewrite mmul_add_l, !mmul_scale_l, I.
    assert (M : mmul (msub F (minv (mtr F))) (mtr F) = msub (mmul F (mtr F)) mident).
    { rewrite <- I. apply mext. intros i j Hi Hj. rewrite mget_sub, !mget_mul by auto. rewrite <- sumd_minus. apply sumd_ext. intros k Hk. rewrite mget_sub by auto. ring. }
    now rewrite M.
  Qed.
  Theorem plast_objective : two_or_three G -> forall p dt Q F tau tau' h o, orthogonal Q -> mdet F <> 0 -> plasticity svd uabs p dt F tau h = Ok o ->
    exists o', plasticity svd uabs p dt (mmul Q F) tau' h = Ok o' /\ o_F o' = mmul Q (o_F o) /\ o_h o' = o_h o /\ o_count o' = o_count o /\ o_exit o' = o_exit o /\
      (elastic_model p = Hencky -> o_tau o' = conj Q (o_tau o)).
  Proof.
    intros HG p dt Q F tau tau' h o HQ D H. unfold plasticity in *. destruct (svd F) as [[U s] V] eqn:E1. destruct (svd (mmul Q F)) as [[U' s'] V'] eqn:E2.
    pose proof (Sv _ _ _ _ E1) as S1. pose proof (Sv _ _ _ _ E2) as S2.
    assert (D' : mdet (mmul Q F) <> 0).
    { rewrite mdet_mul by auto. pose proof (mdet_orth G HG Q HQ). intros Z. apply Rmult_integral in Z. destruct Z as [Z|Z]; [rewrite Z in *; lra|auto]. }
    pose proof (pos_of_det HG _ _ _ _ S1 D) as P1. pose proof (pos_of_det HG _ _ _ _ S2 D') as P2.
    assert (T : tr_of s' = tr_of s) by (unfold tr_of; apply (isotropic_sum Q F U V U' V' s s' HQ S1 S2)).
    assert (N : n_of s' = n_of s) by (unfold n_of; rewrite T; f_equal; apply (isotropic_sum Q F U V U' V' s s' HQ S1 S2 (fun x => (lf x - tr_of s / INR dim) * (lf x - tr_of s / INR dim)))).
    rewrite !trial_form in *. rewrite T, N. apply bind_Ok in H. destruct H as (r & Hr & H). cbv zeta in H. apply Ok_inj in H. subst o.
    destruct (return_iso uabs p dt (tr_of s) (n_of s) h) as [K|(c & a & b & u & hh & n & x & K)]; [now apply K in Hr|].
    rewrite K in Hr |- *. apply Ok_inj in Hr. subst r. cbn [bind r_upd r_hencky r_h r_cnt r_exit]. rewrite !lin_form. eexists. split; [reflexivity|]. cbn [o_F o_h o_count o_exit o_tau].
    set (f := fun y => c * lf y + a * df (tr_of s) (n_of s) y + b).
    assert (RB : forall U0 V0 s0, rebuild U0 V0 (fv f s0) = mmul (mmul U0 (fdiag (fun y => exp (f y)) s0)) (mtr V0)).
    { intros. unfold rebuild, fdiag. do 3 f_equal. apply vext. intros k Hk. unfold fv. rewrite vget_map, !vget_tab by auto. reflexivity. }
    assert (IT : forall U0 s0, hencky_tau p U0 (fv f s0) = conj U0 (fdiag (fun y => lambda p * sumd (fun k => f (vget s k)) + 2 * mu p * f y) s0) \/ sumd (fun k => f (vget s0 k)) <> sumd (fun k => f (vget s k))).
    { intros. destruct (Req_dec (sumd (fun k => f (vget s0 k))) (sumd (fun k => f (vget s k)))) as [E|E]; [left|now right]. rewrite hencky_tau_eq. unfold hencky_stress, conj, fdiag. do 3 f_equal. apply vext.
      intros k Hk. unfold fv. rewrite !vget_tab by auto. rewrite (sumd_ext (fun j => vget (vtab (fun k0 => f (vget s0 k0))) j) (fun k0 => f (vget s0 k0))) by (intros; now rewrite vget_tab).
      now rewrite E. }
    repeat split.
    - destruct u; [reflexivity| |].
      + rewrite !RB. apply (isotropic_F Q F U V U' V' s s' HQ S1 S2 P1 P2).
      + pose proof (isotropic_F Q F U V U' V' s s' HQ S1 S2 P1 P2 (fun _ => 1)) as E.
        assert (I : forall d : TV, fdiag (fun _ => 1) d = mident) by (intros d; unfold fdiag; mx; rewrite vget_tab by auto; reflexivity). rewrite !I, !mmul_id_r in E. exact E.
    - intros Hk. rewrite Hk. destruct (IT U s) as [->|E]; [|now destruct E]. destruct (IT U' s') as [->|E]; [|destruct E; apply (isotropic_sum Q F U V U' V' s s' HQ S1 S2)].
      apply (isotropic Q F U V U' V' s s' HQ S1 S2).
  Qed.
  (** The Hencky stress is a function of F. *)
  Theorem hencky_unique : forall p F t t', is_hencky_stress p F t -> is_hencky_stress p F t' -> t = t'.
  Proof.
    intros p F t t' (U & s & V & S1 & _ & E1) (U' & s' & V' & S2 & _ & E2).
    assert (HI : orthogonal (mident : TM)) by (split; rewrite mtr_ident; apply mmul_id_l).
    assert (S2' : is_svd (mmul mident F) U' s' V') by now rewrite mmul_id_l.
    subst t t'. unfold hencky_stress.
    assert (SUM : sumd (fun j => vget (vtab (fun k => ln (vget s' k))) j) = sumd (fun j => vget (vtab (fun k => ln (vget s k))) j)).
    { rewrite (sumd_ext (fun j => vget (vtab (fun k => ln (vget s' k))) j) (fun k => ln (vget s' k))) by (intros; now rewrite vget_tab).
      rewrite (sumd_ext (fun j => vget (vtab (fun k => ln (vget s k))) j) (fun k => ln (vget s k))) by (intros; now rewrite vget_tab).
      apply (isotropic_sum mident F U V U' V' s s' HI S1 S2'). }
    rewrite SUM. set (c := sumd _).
    pose proof (isotropic mident F U V U' V' s s' HI S1 S2' (fun x => lambda p * c + 2 * mu p * ln x)) as E. unfold conj at 2 in E. rewrite mtr_ident, mmul_id_l, mmul_id_r in E.
    assert (X : forall d : TV, mdiag (vtab (fun k => lambda p * c + 2 * mu p * vget (vtab (fun k0 => ln (vget d k0))) k)) = fdiag (fun x => lambda p * c + 2 * mu p * ln x) d).
    { intros d. unfold fdiag. f_equal. apply vext. intros k Hk. now rewrite !vget_tab by auto. }
    rewrite !X. unfold conj in E. now symmetry.
  Qed.
End Objective.
