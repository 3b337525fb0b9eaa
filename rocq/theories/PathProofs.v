(** * PathProofs: the implicit Cam-Clay solvers follow Newton's method along the flow rule. *)
From Coq Require Import Reals ZArith Lra Lia List Bool.
From Coquelicot Require Import Coquelicot.
From Verif Require Import Num NumR Tools Lin Types Rma Spec SpecPlastic SpecNewton RmaProofs PropRma.
Import ListNotations.
Local Open Scope R_scope.

Section Path.
  Variables (H dH : R -> R) (M beta K f Pt Qt et : R).
  Let Pe := path_p K Pt et. Let Le := path_l H M beta K Pt et. Let Qe := path_q H M beta K f Pt Qt et. Let Ye := path_y H M beta K f Pt Qt et.
  Definition den (e : R) : R := 2 * K * (M * M) * Pe e + M * M * (beta - 1) * K * H e.
  Lemma den_eq : forall e, K * path_slope H M beta K Pt et e = den e.
  Proof.
    intros e. unfold path_slope. replace (Derive _ _) with (M * M * (2 * path_p K Pt et e + (beta - 1) * H e)); [unfold den, Pe; ring|].
    symmetry. apply is_derive_unique. unfold cam_clay, Rsqr. auto_derive; auto. ring.
  Qed.
  Definition code_slope (e : R) : R :=
    let p := Pe e in let p0 := H e in let qd := 1 + 2 * f * Le e in let dp := K in let dp0 := dH e in
    let ddg := (- dp / den e) - (Pt - p) * (2 * K * (M * M) * dp + M * M * (beta - 1) * K * dp0) / (den e * den e) in
    let dq := - Qt * 2 * f * ddg / (qd * qd) in
    M * M * (dp - dp0) * (p + beta * p0) + M * M * (p - p0) * (beta * dp0 + dp) + 2 * Qe e * dq.
  Lemma slope_derive : forall e, is_derive H e (dH e) -> regular H M beta K f Pt et e -> Derive Ye e = code_slope e.
  Proof.
    intros e D (R1 & R2). rewrite den_eq in R1. apply is_derive_unique.
    assert (DL : is_derive Le e ((- K / den e) - (Pt - Pe e) * (2 * K * (M * M) * K + M * M * (beta - 1) * K * dH e) / (den e * den e))).
    { apply (is_derive_ext (fun t => (Pt - Pe t) / den t)). { intros t. unfold Le, path_l. now rewrite den_eq. }
      unfold den, Pe, path_p in *. auto_derive; [split; [exists (dH e); exact D|split; [exact R1|auto]]|]. replace (Derive (fun x : R => H x) e) with (dH e) by (symmetry; exact (is_derive_unique _ _ _ D)). field. exact R1. }
    set (dl := (- K / den e) - _) in DL.
    assert (DQ : is_derive Qe e (- Qt * 2 * f * dl / ((1 + 2 * f * Le e) * (1 + 2 * f * Le e)))).
    { apply (is_derive_ext (fun t => Qt / (1 + 2 * f * Le t))). { intros; reflexivity. }
      auto_derive; [split; [exists dl; exact DL|split; [exact R2|auto]]|]. replace (Derive (fun x : R => Le x) e) with dl by (symmetry; exact (is_derive_unique _ _ _ DL)). field. exact R2. }
    apply (is_derive_ext (fun t => M * M * (Pe t - H t) * (Pe t + beta * H t) + Qe t * Qe t)). { intros t. unfold Ye, path_y, cam_clay, Rsqr. reflexivity. }
    unfold code_slope. cbv zeta. fold dl. set (dq := - Qt * 2 * f * dl / _) in *. unfold Pe, path_p.
    auto_derive; [repeat split; first [exists (dH e); exact D|exists dq; exact DQ|auto]|]. replace (Derive (fun x : R => H x) e) with (dH e) by (symmetry; exact (is_derive_unique _ _ _ D)). replace (Derive (fun x : R => Qe x) e) with dq by (symmetry; exact (is_derive_unique _ _ _ DQ)). ring.
  Qed.

  Variables (slope : R -> R) (mag : R -> R) (lastexit : R -> bool) (nit : nat).
  Hypothesis Slope : forall e, regular H M beta K f Pt et e -> slope e = code_slope e.
  Hypothesis Het : H et = 1.
  Definition step_of (e : R) : R := Ye e / code_slope e.
  Definition nxt (s : R * Z) : R * Z := match limited_search H (fst s) et (step_of (fst s)) K Pt beta (snd s) with SOk e' r' => (e', r') | _ => s end.
  Fixpoint trace (k : nat) : R * Z := match k with O => (et, if Rlt_dec ((1 - beta) / 2) Pt then 1 else 0)%Z | S k => nxt (trace k) end.
  Let es (k : nat) : R := fst (trace k). Let sides (k : nat) : Z := snd (trace k).
  Lemma search_cases : forall e r s, match limited_search H e et s K Pt beta r with SOk e' r' => searched H beta K Pt et r e s r' e' | SInf => search_fails H beta K Pt et r e s | SFuel => False end.
  Proof.
    intros e r s. pose proof (C40_limited_search H e et s K Pt beta r) as C. cbv zeta in C. destruct C as [(-> & C)|(i & Hi & Hj & [(-> & C)|(-> & C)])]; [exact C| |]; exists i; split; auto; split; auto.
  Qed.
  Strategy 100 [limited_search trace onevar_loop].
  Lemma loop_path : forall n k, (k + n = nit)%nat -> newton_path H M beta K f Pt Qt et slope mag es sides k ->
    let e0 := es (pred k) in
    match onevar_loop n (Z.of_nat k) (Z.of_nat nit) H dH lastexit mag (M * M) beta K f Pt Qt et (sides k) (es k) (Pe e0) (H e0) (match n with O => match nit with O => false | _ => lastexit (H e0) end | _ => false end) with
    | Apex p p0 ex => exists k', newton_path H M beta K f Pt Qt et slope mag es sides k' /\ (k' < nit)%nat /\ at_centre H beta K Pt et es k' /\ p = Pe (es (pred k')) /\ p0 = H (es (pred k')) /\ ex = false
    | Done p p0 ex => exists k' e, newton_path H M beta K f Pt Qt et slope mag es sides k' /\ p = Pe e /\ p0 = H e /\
        ((k' < nit)%nat /\ converged H M beta K f Pt Qt et mag es k' /\ e = es k' /\ ex = false \/
         (k' < nit)%nat /\ (exists step, (regular H M beta K f Pt et (es k') -> step = Ye (es k') / slope (es k')) /\ search_fails H beta K Pt et (sides k') (es k') step) /\ e = es k' /\ ex = true \/
         k' = nit /\ e = es (pred k') /\ (ex = true <-> match nit with O => False | _ => lastexit (H e) = true end))
    end.
  Proof using Slope Het.
    induction n as [|n IH]; intros k Hk Np e0.
    - cbn [onevar_loop]. exists k, e0. split; [exact Np|]. split; [reflexivity|]. split; [reflexivity|]. right. right. split; [lia|]. split; [reflexivity|]. destruct nit; [intuition discriminate|reflexivity].
    - cbn [onevar_loop]. cbv zeta. numR. rewrite ?nofZ_R. numR.
      assert (Ce : at_centre H beta K Pt et es k <-> Rabs (Pe e0 - (H e0 - beta * H e0) * (1/2)) < 1/10000).
      { unfold at_centre. fold e0. unfold Pe. replace (path_p K Pt et e0 - (1 - beta) / 2 * H e0) with (path_p K Pt et e0 - (H e0 - beta * H e0) * (1/2)) by field. reflexivity. }
      destruct (Rltb_spec (Rabs (Pe e0 - (H e0 - beta * H e0) * (1/2))) (1/10000)) as [Ac|Ac].
      { exists k. repeat (split; [first [assumption|lia|tauto|reflexivity]|]). reflexivity. }
      assert (EP : (es k - et) * K + Pt = Pe (es k)) by (unfold Pe, path_p; ring). rewrite !EP. fold (den (es k)).
      assert (EL : (Pt - Pe (es k)) / den (es k) = Le (es k)) by (unfold Le, path_l; now rewrite den_eq). rewrite !EL.
      assert (EQ : Qt / (1 + 2 * f * Le (es k)) = Qe (es k)) by reflexivity. rewrite !EQ.
      assert (EY : M * M * (Pe (es k) - H (es k)) * (Pe (es k) + beta * H (es k)) + Qe (es k) * Qe (es k) = Ye (es k)) by reflexivity. rewrite !EY.
      set (test := ((5 <? Z.of_nat k)%Z && Rltb (mag (Ye (es k))) (1/10000))%bool).
      assert (T : test = true <-> converged H M beta K f Pt Qt et mag es k).
      { unfold test, converged. rewrite andb_true_iff, Z.ltb_lt. fold Ye. split; intros (A & B); split; try lia; [now apply Rltb_true in B|]. destruct (Rltb_spec (mag (Ye (es k))) (1/10000)); auto; lra. }
      destruct test.
      { exists k, (es k). repeat (split; [first [assumption|reflexivity]|]). left. repeat split; try lia; now apply T. }
      change (M * M * (K - dH (es k)) * (Pe (es k) + beta * H (es k)) + M * M * (Pe (es k) - H (es k)) * (beta * dH (es k) + K) + 2 * Qe (es k) * (- Qt * 2 * f * (- K / den (es k) - (Pt - Pe (es k)) * (2 * K * (M * M) * K + M * M * (beta - 1) * K * dH (es k)) / (den (es k) * den (es k))) / ((1 + 2 * f * Le (es k)) * (1 + 2 * f * Le (es k))))) with (code_slope (es k)).
      change (Ye (es k) / code_slope (es k)) with (step_of (es k)).
      pose proof (search_cases (es k) (sides k) (step_of (es k))) as Sc.
      assert (Nx : trace (S k) = nxt (trace k)) by reflexivity. unfold nxt in Nx. fold (es k) (sides k) in Nx.
      assert (St : regular H M beta K f Pt et (es k) -> step_of (es k) = Ye (es k) / slope (es k)) by (intros Rg; unfold step_of; now rewrite Slope).
      destruct (limited_search H (es k) et (step_of (es k)) K Pt beta (sides k)) as [e' r'| |] eqn:Ls; [| |destruct Sc].
      + assert (E1 : es (S k) = e') by (unfold es; now rewrite Nx). assert (E2 : sides (S k) = r') by (unfold sides; now rewrite Nx).
        rewrite <- E1, <- E2 in *. replace (Z.of_nat k + 1)%Z with (Z.of_nat (S k)) by lia.
        assert (Np' : newton_path H M beta K f Pt Qt et slope mag es sides (S k)).
        { destruct Np as (A & B & C). split; [exact A|]. split; [exact B|]. intros j Hj. destruct (Nat.eq_dec j k) as [->|]; [|apply C; lia]. split; [tauto|]. split; [intros X; apply T in X; discriminate|]. exists (step_of (es k)). auto. }
        specialize (IH (S k) ltac:(lia) Np'). cbn [pred] in IH.
        assert (Ex : (if ((Z.of_nat k =? Z.of_nat nit - 1)%Z && lastexit (H (es k)))%bool then true else false) = match n with O => match nit with O => false | _ => lastexit (H (es k)) end | _ => false end).
        { destruct n as [|n'].
          - destruct (Z.eqb_spec (Z.of_nat k) (Z.of_nat nit - 1)); [|lia]. destruct nit; [lia|]. cbn [andb]. now destruct (lastexit (H (es k))).
          - destruct (Z.eqb_spec (Z.of_nat k) (Z.of_nat nit - 1)); [lia|]. reflexivity. }
        rewrite Ex. exact IH.
      + exists k, (es k). repeat (split; [first [assumption|reflexivity]|]). right. left. split; [lia|]. split; [|split; reflexivity]. exists (step_of (es k)). auto.
  Qed.
  Lemma run_path : forall u r, r = onevar_run nit H dH lastexit mag M beta K f Pt Qt et u -> exists es sides k P',
    newton_path H M beta K f Pt Qt et slope mag es sides k /\ path_end H M beta K f Pt Qt et slope mag nit (fun e => match nit with O => False | _ => lastexit (H e) = true end) es sides k P' (rm_exit r) /\ rm_p r = P' * u.
  Proof using Slope Het.
    intros u r ->. assert (N0 : newton_path H M beta K f Pt Qt et slope mag es sides 0) by (split; [reflexivity|]; split; [reflexivity|intros; lia]).
    pose proof (loop_path nit 0 eq_refl N0) as L. cbv zeta in L. change (Z.of_nat 0) with 0%Z in L. cbn [pred] in L.
    assert (E0 : es 0%nat = et) by reflexivity. rewrite E0 in L. assert (P0 : Pe et = Pt) by (unfold Pe, path_p; ring). rewrite P0, Het in L.
    unfold onevar_run. numR. rewrite ?nofZ_R. numR.
    assert (Sd : (if Rltb (1 / 2 * (1 - beta * 1)) Pt then 1%Z else 0%Z) = sides 0%nat).
    { unfold sides. cbn [trace snd]. destruct (Rltb_spec (1/2 * (1 - beta * 1)) Pt), (Rlt_dec ((1 - beta) / 2) Pt); lra || reflexivity. }
    rewrite Sd. assert (Ez : match nit with O => match nit with O => false | _ => lastexit 1 end | _ => false end = false) by (destruct nit; reflexivity). rewrite Ez in L.
    destruct (onevar_loop nit 0 (Z.of_nat nit) H dH lastexit mag (M * M) beta K f Pt Qt et (sides 0%nat) et Pt 1 false) as [p p0 ex|p p0 ex].
    - destruct L as (k & Np & Hk & Ce & -> & -> & ->). exists es, sides, k, (Pe (es (pred k))). cbn [rm_p rm_exit]. split; [exact Np|]. split; [|numR; ring]. left. auto.
    - destruct L as (k & e & Np & -> & -> & C). exists es, sides, k, (Rmin (Rmax (Pe e) (- beta * H e)) (H e)). cbn [rm_p rm_exit]. split; [exact Np|].
      split; [|unfold mcc_clamp; rewrite cmin_R, cmax_R; numR; reflexivity]. right. destruct C as [(A & B & -> & ->)|[(A & B & -> & ->)|(A & -> & B)]]; [left|right; left|right; right]; auto.
  Qed.
End Path.

(** ** The two solvers *)
Lemma exponential_path : forall uabs M beta K f P Q pc0 xi ev, 0 < pc0 ->
  let pc := fun e => pc0 * exp (- xi * e) in let u := pc ev in let H := fun e => pc e / u in 0 < cam_clay M beta u P Q ->
  let slope := Derive (path_y H M beta (K / u) (f / u) (P / u) (Q / u) ev) in let r := MCCRMAImplicitExponentialOnevar uabs P Q M pc0 beta f K xi ev in
  exists es sides k P', newton_path H M beta (K / u) (f / u) (P / u) (Q / u) ev slope uabs es sides k /\
    path_end H M beta (K / u) (f / u) (P / u) (Q / u) ev slope uabs 30 (fun _ => False) es sides k P' (rm_exit r) /\ rm_p r = P' * u.
Proof.
  intros uabs M beta K f P Q pc0 xi ev Hp pc u H Y slope r.
  assert (Hu : 0 < u) by (unfold u, pc; apply Rmult_lt_0_compat; auto; apply exp_pos).
  assert (DH : forall e, is_derive H e (- xi * H e)) by (intros e; unfold H, pc; auto_derive; [auto|field; lra]).
  assert (H1 : H ev = 1) by (unfold H; fold u; field; lra).
  assert (Er : r = onevar_run 30 H (fun e => - xi * H e) (fun _ => false) uabs M beta (K / u) (f / u) (P / u) (Q / u) ev u).
  { unfold r, MCCRMAImplicitExponentialOnevar. cbv zeta. rewrite ?nofZ_R. numR. change (pc0 * exp (- xi * ev)) with u. rewrite cam_expand. destruct (Rleb_spec (cam_clay M beta u P Q) 0) as [L|_]; [lra|].
    assert (EH : (fun e => pc0 * (1 / u) * exp (- xi * e)) = H) by (apply FunctionalExtensionality.functional_extensionality; intros e; unfold H, pc; field; lra).
    assert (ED : (fun e => - xi * (pc0 * (1 / u) * exp (- xi * e))) = (fun e => - xi * H e)) by (apply FunctionalExtensionality.functional_extensionality; intros e; unfold H, pc; field; lra).
    rewrite EH, ED. unfold Rdiv. now rewrite !Rmult_1_l. }
  destruct (run_path H (fun e => - xi * H e) M beta (K / u) (f / u) (P / u) (Q / u) ev slope uabs (fun _ => false) 30) with (u := u) (r := r) as (es & sides & k & P' & A & B & C); auto.
  - intros e Rg. apply slope_derive; auto.
  - exists es, sides, k, P'. split; [exact A|]. split; [|exact C]. destruct B as [B|[B|[B|(B1 & B2 & B3)]]]; [left|right; left|right; right; left|right; right; right]; auto. split; auto. split; auto. rewrite B3. split; [discriminate|tauto].
Qed.
(** The sinh solver: the same with derivative [d] of the hardening law. *)
Lemma sinh_path : forall M beta K f P Q pc0 xi ev, 0 < pc0 -> 0 < K ->
  let pc := fun e => Rmax (1/100) (K * sinh (- xi * e + Rasinh (pc0 / K))) in let u := pc ev in let H := fun e => pc e / u in 0 < cam_clay M beta u P Q ->
  let d := sinh_derivative K pc0 xi u in
  let slope := fun e => Derive (path_y (fun a => H e + d e * (a - e)) M beta (K / u) (f / u) (P / u) (Q / u) ev) e in let r := MCCRMAImplicitSinhOnevar P Q M pc0 beta f K xi ev in
  exists es sides k P', newton_path H M beta (K / u) (f / u) (P / u) (Q / u) ev slope Rabs es sides k /\
    path_end H M beta (K / u) (f / u) (P / u) (Q / u) ev slope Rabs 40 (fun e => 1/100 < pc e) es sides k P' (rm_exit r) /\ rm_p r = P' * u.
Proof.
  intros M beta K f P Q pc0 xi ev Hp HK pc u H Y d slope r.
  assert (Hu : 0 < u) by (unfold u, pc; pose proof (Rmax_l (1/100) (K * sinh (- xi * ev + Rasinh (pc0 / K)))); lra).
  assert (H1 : H ev = 1) by (unfold H; fold u; field; lra).
  assert (Er : r = onevar_run 40 H d (fun x => Rltb (1/100 / u) x) Rabs M beta (K / u) (f / u) (P / u) (Q / u) ev u).
  { unfold r, MCCRMAImplicitSinhOnevar. cbv zeta. rewrite ?cmax_R, ?nofZ_R. numR. change (Rmax (1 / 100) (K * sinh (- xi * ev + Rasinh (pc0 / K)))) with u. rewrite cam_expand. destruct (Rleb_spec (cam_clay M beta u P Q) 0) as [L|_]; [lra|].
    assert (Ea : pc0 * (1 / u) / (K * (1 / u)) = pc0 / K) by (field; lra). rewrite !Ea.
    assert (EH : (fun e => cmax (1 / 100 * (1 / u)) (K * (1 / u) * sinh (- xi * e + Rasinh (pc0 / K)))) = H).
    { apply FunctionalExtensionality.functional_extensionality; intros e. rewrite cmax_R. unfold H, pc. replace (Rmax _ _ / u) with (1 / u * Rmax (1/100) (K * sinh (- xi * e + Rasinh (pc0 / K)))) by (field; lra).
      rewrite <- RmaxRmult by (apply Rlt_le, Rdiv_lt_0_compat; lra). f_equal; ring. }
    rewrite EH. unfold onevar_run. numR.
    set (d1 := fun e : R => if Rltb (1 / 100 * (1 / u)) _ then _ else _).
    assert (ED : d1 = d).
    { apply FunctionalExtensionality.functional_extensionality; intros e. unfold d1, d, sinh_derivative. cbv zeta. replace (1 / 100 * (1 / u)) with (1 / 100 / u) by (field; lra). replace (K * (1 / u)) with (K / u) by (field; lra).
      destruct (Rltb_spec (1 / 100 / u) (K / u * sinh (- xi * e + Rasinh (pc0 / K)))), (Rlt_dec (1 / 100 / u) (K / u * sinh (- xi * e + Rasinh (pc0 / K)))); try lra; field; lra. }
    rewrite ED. replace (fun p0 : R => Rltb (1 / 100 * (1 / u)) p0) with (fun x => Rltb (1/100 / u) x) by (apply FunctionalExtensionality.functional_extensionality; intros; f_equal; field; lra).
    unfold Rdiv. now rewrite !Rmult_1_l. }
  destruct (run_path H d M beta (K / u) (f / u) (P / u) (Q / u) ev slope Rabs (fun x => Rltb (1/100 / u) x) 40) with (u := u) (r := r) as (es & sides & k & P' & A & B & C); auto.
  - intros e Rg. unfold slope. set (T := fun a => H e + d e * (a - e)). assert (TE : T e = H e) by (unfold T; ring).
    rewrite (slope_derive T (fun _ => d e) M beta (K / u) (f / u) (P / u) (Q / u) ev e).
    + unfold code_slope, den, path_q, path_l, path_slope. now rewrite !TE.
    + unfold T. auto_derive; auto. ring.
    + unfold regular, path_l, path_slope in *. rewrite !TE. exact Rg.
  - exists es, sides, k, P'. split; [exact A|]. split; [|exact C]. destruct B as [B|[B|[B|(B1 & B2 & B3)]]]; [left|right; left|right; right; left|right; right; right]; auto. split; auto. split; auto. rewrite B3. unfold H.
    destruct (Rltb_spec (1/100 / u) (pc (es (pred k)) / u)) as [L|L].
    + split; auto. intros _. apply (Rmult_lt_reg_r (/ u)); [apply Rinv_0_lt_compat; auto|exact L].
    + split; [discriminate|]. intros X. exfalso. apply L. apply Rmult_lt_compat_r; [apply Rinv_0_lt_compat; auto|auto].
Qed.
(** [sinh_derivative] is not the derivative of the hardening law. *)
Lemma sinh_derivative_wrong : forall K pc0 xi u e, 0 < K -> 0 < u -> let s := K * sinh (- xi * e + Rasinh (pc0 / K)) in
  let H := fun e => Rmax (1/100) (K * sinh (- xi * e + Rasinh (pc0 / K))) / u in s <> 1/100 ->
  exists d, is_derive H e d /\ sinh_derivative K pc0 xi u e = d + (if Rlt_dec (1/100) s then -1 else 1) * (1/200 / u).
Proof.
  intros K pc0 xi u e HK Hu s H Ne. set (S := fun e => K * sinh (- xi * e + Rasinh (pc0 / K))).
  assert (DS : forall e, is_derive S e (- xi * K * cosh (- xi * e + Rasinh (pc0 / K)))). { intros x. unfold S, sinh, cosh. auto_derive; auto. field. }
  assert (CS : forall x, continuous S x) by (intros x; exact (@ex_derive_continuous R_AbsRing R_NormedModule S x (ex_intro _ _ (DS x)))).
  unfold sinh_derivative. cbv zeta. replace (K / u * sinh (- xi * e + Rasinh (pc0 / K))) with (s / u) by (unfold s; field; lra).
  assert (Cmp : 1/100 / u < s / u <-> 1/100 < s). { split; intros X; [apply (Rmult_lt_reg_r (/ u)); [apply Rinv_0_lt_compat; auto|exact X]|apply Rmult_lt_compat_r; [apply Rinv_0_lt_compat; auto|auto]]. }
  destruct (Rlt_dec (1/100) s) as [L|L].
  - exists (- xi * K * cosh (- xi * e + Rasinh (pc0 / K)) / u). split; [|destruct (Rlt_dec (1 / 100 / u) (s / u)); [field; lra|tauto]].
    apply (is_derive_ext_loc (fun x => S x / u)).
    + assert (O : locally e (fun x => 1/100 < S x)). { apply (CS e (fun y => 1/100 < y)). apply (open_gt (1/100)). exact L. }
      revert O. apply filter_imp. intros x Hx. unfold H. fold (S x). now rewrite (Rmax_right (1/100) (S x)) by lra.
    + replace (- xi * K * cosh (- xi * e + Rasinh (pc0 / K)) / u) with (/ u * (- xi * K * cosh (- xi * e + Rasinh (pc0 / K)))) by (field; lra). apply (is_derive_ext (fun x => / u * S x)); [intros x; apply Rmult_comm|]. apply is_derive_scal, DS.
  - exists 0. split; [|destruct (Rlt_dec (1 / 100 / u) (s / u)); [tauto|field; lra]].
    apply (is_derive_ext_loc (fun x => 1/100 / u)).
    + assert (O : locally e (fun x => S x < 1/100)). { apply (CS e (fun y => y < 1/100)). apply (open_lt (1/100)). unfold S. fold s. lra. }
      revert O. apply filter_imp. intros x Hx. unfold H. fold (S x). now rewrite (Rmax_left (1/100) (S x)) by lra.
    + auto_derive; auto.
Qed.
