(** * RmaProofs: the Cam-Clay return mapping algorithms. *)
From Coq Require Import Reals ZArith Lra Lia List Bool.
From Verif Require Import Num NumR Tools Lin Types Rma SpecPlastic.
Import ListNotations.
Local Open Scope R_scope.

Section RP.
  Variable uabs : R -> R.
  Lemma clamp_R : forall M p0 beta p, mcc_clamp M p0 beta p = into_range beta p0 p.
  Proof. intros. unfold mcc_clamp, into_range. rewrite cmin_R, cmax_R. reflexivity. Qed.
  Lemma into_range_in : forall beta pc P, - beta * pc <= pc -> - beta * pc <= into_range beta pc P <= pc.
  Proof. intros beta pc P H. unfold into_range. unfold Rmin, Rmax. destruct (Rle_dec P (- beta * pc)); repeat match goal with |- context [Rle_dec ?a ?b] => destruct (Rle_dec a b) end; lra. Qed.
  Lemma into_range_id : forall beta pc P, - beta * pc <= P <= pc -> into_range beta pc P = P.
  Proof. intros beta pc P H. unfold into_range. rewrite Rmax_left, Rmin_left; lra. Qed.
  Lemma into_range_scale : forall beta pc P s, 0 < s -> into_range beta pc P * s = into_range beta (pc * s) (P * s).
  Proof.
    intros beta pc P s H. unfold into_range. replace (- beta * (pc * s)) with ((- beta * pc) * s) by ring. set (x := - beta * pc). clearbody x.
    assert (M : forall a b, Rmax (a * s) (b * s) = Rmax a b * s).
    { intros a b. unfold Rmax. destruct (Rle_dec a b), (Rle_dec (a * s) (b * s)); nra. }
    rewrite M. set (y := Rmax P x). clearbody y. unfold Rmin. destruct (Rle_dec y pc), (Rle_dec (y * s) (pc * s)); nra.
  Qed.
  Lemma q_ellipse : forall M beta pc P, 0 <= M -> - beta * pc <= P <= pc -> on_ellipse M beta pc P (mcc_q M pc beta P).
  Proof.
    intros M beta pc P HM H. unfold on_ellipse, mcc_q, cam_clay. numR. split; auto. split; [apply Rmult_le_pos; auto; apply sqrt_pos|].
    unfold Rsqr. replace (M * sqrt ((pc - P) * (beta * pc + P)) * (M * sqrt ((pc - P) * (beta * pc + P)))) with (M * M * (sqrt ((pc - P) * (beta * pc + P)) * sqrt ((pc - P) * (beta * pc + P)))) by ring.
    rewrite sqrt_sqrt by (apply Rmult_le_pos; lra). ring.
  Qed.
  Lemma q_scale : forall M beta pc P s, 0 < s -> mcc_q M pc beta P * s = mcc_q M (pc * s) beta (P * s).
  Proof.
    intros M beta pc P s H. unfold mcc_q. numR. replace ((pc * s - P * s) * (beta * (pc * s) + P * s)) with (s * s * ((pc - P) * (beta * pc + P))) by ring.
    rewrite (sqrt_mult_alt (s * s)) by (apply Rlt_le, Rmult_lt_0_compat; lra). rewrite (sqrt_square s) by lra. ring.
  Qed.

  (** mcc_rma_explicit.hpp *)
  Lemma explicit_spec : forall p q M p0 beta K f_mu, 0 <= p0 -> 0 <= beta -> 0 <= M ->
    let r := MCCRMAExplicit uabs p q M p0 beta K f_mu in rm_exit r = false /\
    (cam_clay M beta p0 p q <= 0 -> rm_plastic r = false /\ rm_p r = p /\ rm_q r = q) /\
    (0 < cam_clay M beta p0 p q -> rm_plastic r = true /\ on_ellipse M beta p0 (rm_p r) (rm_q r)).
  Proof.
    intros p q M p0 beta K f_mu Hp Hb HM. unfold MCCRMAExplicit. rewrite ?nofZ_R. numR.
    replace (M * M * (p - p0) * (p + beta * p0) + q * q) with (cam_clay M beta p0 p q) by (unfold cam_clay, Rsqr; ring).
    destruct (Rltb_spec 0 (cam_clay M beta p0 p q)) as [L|L].
    - destruct (mcc_expl_loop uabs 40 0 M p0 beta K f_mu p q p q 0) as (p', q'). cbn [rm_exit rm_plastic rm_p rm_q].
      split; auto. split; [intros; lra|]. intros _. split; auto. apply q_ellipse; auto. rewrite clamp_R. apply into_range_in. nra.
    - cbn [rm_exit rm_plastic rm_p rm_q]. split; auto. split; [auto|intros; lra].
  Qed.

  (** mcc_rma_explicit_onevar.hpp *)
  Lemma explicit_onevar_spec : forall p q M p0 beta mu K, 0 < p0 -> 0 <= beta -> 0 <= M ->
    let r := MCCRMAExplicitOnevar p q M p0 beta mu K in
    (cam_clay M beta p0 p q <= 0 -> rm_plastic r = false /\ rm_exit r = false /\ rm_p r = p /\ rm_q r = q) /\
    (0 < cam_clay M beta p0 p q -> rm_plastic r = true /\ on_ellipse M beta p0 (rm_p r) (rm_q r)).
  Proof.
    intros p q M p0 beta mu K Hp Hb HM. unfold MCCRMAExplicitOnevar. rewrite ?nofZ_R. numR.
    replace (M * M * (p - p0) * (p + beta * p0) + q * q) with (cam_clay M beta p0 p q) by (unfold cam_clay, Rsqr; ring).
    destruct (Rleb_spec (cam_clay M beta p0 p q) 0) as [L|L].
    - cbn [rm_exit rm_plastic rm_p rm_q]. split; [auto|intros; lra].
    - match goal with |- context [let (_, _) := ?X in _] => destruct X as (p', ex') end. cbn [rm_exit rm_plastic rm_p rm_q].
      split; [intros; lra|]. intros _. split; auto. rewrite q_scale, clamp_R, into_range_scale, Rmult_1_l by auto. apply q_ellipse; auto. apply into_range_in. nra.
  Qed.

  (** mcc_rma_implicit_exponential.hpp *)
  Lemma impl_loop_p0 : forall n iter M p00 beta K xi f_mu epv pt qt p q dg p0 p' q' p0', 0 < p00 -> 0 < p0 ->
    mcc_impl_loop uabs n iter M p00 beta K xi f_mu epv pt qt p q dg p0 = (p', q', p0') -> 0 < p0'.
  Proof.
    induction n as [|m IH]; intros iter M p00 beta K xi f_mu epv pt qt p q dg p0 p' q' p0' H0 H1 H; cbn [mcc_impl_loop] in H.
    - injection H as _ _ <-. auto.
    - set (p01 := p00 * exp (- xi * (epv + (p - pt) / K))). assert (P1 : 0 < p01) by (unfold p01; apply Rmult_lt_0_compat; auto; apply exp_pos).
      match type of H with (if ?c then _ else _) = _ => destruct c end; [injection H as _ _ <-; exact P1|].
      match type of H with (if ?c then _ else _) = _ => destruct c end; [injection H as _ _ <-; exact P1|].
      match type of H with (let (_, _) := ?X in _) = _ => destruct X as ((pa, qa), da) end.
      apply (IH _ _ _ _ _ _ _ _ _ _ _ _ _ _ _ _ _ H0 P1 H).
  Qed.
  Lemma implicit_exponential_spec : forall p q M p00 beta K xi f_mu epv, 0 < p00 -> 0 <= beta -> 0 <= M ->
    let r := MCCRMAImplicitExponential uabs p q M p00 beta K xi f_mu epv in let pc := Rmax (1/100) (p00 * exp (- xi * epv)) in
    rm_exit r = false /\
    (cam_clay M beta pc p q <= 0 -> rm_plastic r = false /\ rm_p r = p /\ rm_q r = q) /\
    (0 < cam_clay M beta pc p q -> rm_plastic r = true /\ exists pc', 0 < pc' /\ on_ellipse M beta pc' (rm_p r) (rm_q r)).
  Proof.
    intros p q M p00 beta K xi f_mu epv Hp Hb HM. unfold MCCRMAImplicitExponential. rewrite ?nofZ_R, cmax_R. numR. cbv zeta.
    set (pc := Rmax (1/100) (p00 * exp (- xi * epv))).
    replace (M * M * (p - pc) * (p + beta * pc) + q * q) with (cam_clay M beta pc p q) by (unfold cam_clay, Rsqr; ring).
    destruct (Rltb_spec 0 (cam_clay M beta pc p q)) as [L|L].
    - match goal with |- context [let (_, _) := ?X in _] => destruct X as ((p', q'), p0') eqn:E end. cbn [rm_exit rm_plastic rm_p rm_q].
      split; auto. split; [intros; lra|]. intros _. split; auto. exists p0'.
      assert (0 < pc) by (unfold pc; pose proof (Rmax_l (1/100) (p00 * exp (- xi * epv))); lra).
      assert (P0 : 0 < p0') by (eapply impl_loop_p0; [| |exact E]; auto). split; auto.
      apply q_ellipse; auto. rewrite clamp_R. apply into_range_in. nra.
    - cbn [rm_exit rm_plastic rm_p rm_q]. split; auto. split; [auto|intros; lra].
  Qed.

  (** ** Line search *)
  Lemma sgn_R : forall x : R, sgn x = if Rltb 0 x then 1%Z else if Rltb x 0 then (-1)%Z else 0%Z.
  Proof. intros. unfold sgn. rewrite ?nofZ_R. numR. destruct (Rltb_spec 0 x), (Rltb_spec x 0); try lra; reflexivity. Qed.
  (** [e] is a strain the search accepts: near the apex, or with a plastic multiplier of the right sign. *)
  Definition acceptable (law : R -> R) (K pt beta et e : R) : Prop :=
    let p0 := law e in let p := K * (e - et) + pt in
    Rabs (p - (p0 - beta * p0) / 2) <= 1/100000 \/ e = et \/ 0 < (et - e) * (2 * p + (beta - 1) * p0) \/ (et - e = 0 /\ 2 * p + (beta - 1) * p0 = 0).
  Definition on_side (law : R -> R) (K pt beta et : R) (right : Z) (e : R) : Prop :=
    let p0 := law e in let p := K * (e - et) + pt in let mid := (p0 - beta * p0) / 2 in
    Rabs (p - mid) <= 1/100000 \/ ((right = 1%Z -> mid <= p /\ mid <= pt) /\ (right = 0%Z -> p <= mid /\ pt <= mid)).
  Lemma search_spec : forall fuel law e0 et K pt beta right tries f scale delta res,
    search fuel law e0 et K pt beta right tries f scale delta = res ->
    match res with
    | SOk e r => (r = right /\ acceptable law K pt beta et e /\ on_side law K pt beta et right e) \/ (r = (-1)%Z /\ e = e0)
    | SInf => True
    | SFuel => True
    end.
  Proof.
    induction fuel as [|fu IH]; intros law e0 et K pt beta right tries f scale delta res H; cbn [search] in H; [subst; auto|].
    numR. set (e := e0 - scale * delta) in *. set (pp := K * (e - et) + pt) in *. rewrite ?nofZ_R in H.
    replace ((law e - beta * law e) * (1 / 2)) with ((law e - beta * law e) / 2) in H by lra.
    set (mid := (law e - beta * law e) / 2) in *.
    destruct (Rleb_spec (Rabs (pp - mid)) (1/100000)) as [A|A].
    { subst res. left. repeat split; left; exact A. }
    match type of H with (if ?c then _ else _) = _ => destruct c eqn:Side end; [subst res; right; auto|].
    assert (OS : on_side law K pt beta et right e).
    { right. apply orb_false_iff in Side. destruct Side as (S1 & S2). split; intros ->; cbn [Z.eqb andb] in S1, S2;
      [clear S2; rename S1 into S2|clear S1]; change (1 =? 1)%Z with true in S2; change (0 =? 0)%Z with true in S2; cbn [andb] in S2; apply orb_false_iff in S2; destruct S2 as (X & Y); apply Rltb_false in X, Y; auto. }
    match type of H with (if ?c then _ else _) = _ => destruct c eqn:Acc end.
    { subst res. left. repeat split; auto. right. rewrite !sgn_R in Acc. apply orb_true_iff in Acc.
      fold pp. set (v := 2 * pp + (beta - 1) * law e) in *.
      destruct (Rltb_spec 0 (et - e)), (Rltb_spec (et - e) 0), (Rltb_spec 0 v), (Rltb_spec v 0); destruct Acc as [B|B]; try discriminate B; try lra;
      try (right; left; nra); try (left; lra). }
    match type of H with (if ?c then _ else _) = _ => destruct c end; [apply (IH _ _ _ _ _ _ _ _ _ _ _ _ H)|].
    match type of H with (if ?c then _ else _) = _ => destruct c end; [subst; auto|]. apply (IH _ _ _ _ _ _ _ _ _ _ _ _ H).
  Qed.
  (** The search never runs out of fuel: at most 32 trials per direction. *)
  Lemma search_fuel : forall fuel law e0 et K pt beta right tries f scale delta, (0 <= tries < 32)%Z -> (0 <= f <= 1)%Z ->
    (Z.of_nat fuel > 32 * (1 - f) + (32 - tries) )%Z -> search fuel law e0 et K pt beta right tries f scale delta <> SFuel.
  Proof.
    induction fuel as [|fu IH]; intros law e0 et K pt beta right tries f scale delta Ht Hf Hfu; [lia|]. cbn [search].
    match goal with |- (if ?c then _ else _) <> _ => destruct c end; [discriminate|].
    match goal with |- (if ?c then _ else _) <> _ => destruct c end; [discriminate|].
    match goal with |- (if ?c then _ else _) <> _ => destruct c end; [discriminate|].
    destruct (Z.eqb_spec (tries + 1) 32) as [E|E]; cbn [negb].
    - destruct (Z.gtb_spec (f + 1) 1); [discriminate|]. apply IH; lia.
    - apply IH; lia.
  Qed.

  (** ** One-variable implicit schemes *)
  Lemma onevar_inv : forall n iter maxit law dlaw lastexit cabs Msq beta K mu pt qt et right e p p0 ex,
    (exists e', p0 = law e' /\ p = (e' - et) * K + pt) ->
    match onevar_loop n iter maxit law dlaw lastexit cabs Msq beta K mu pt qt et right e p p0 ex with
    | Apex p' p0' ex' => (exists e', p0' = law e' /\ p' = (e' - et) * K + pt) /\ Rabs (p' - (p0' - beta * p0') / 2) < 1/10000
    | Done p' p0' ex' => exists e', p0' = law e' /\ p' = (e' - et) * K + pt
    end.
  Proof.
    induction n as [|m IH]; intros iter maxit law dlaw lastexit cabs Msq beta K mu pt qt et right e p p0 ex H0; cbn [onevar_loop]; [auto|].
    numR. replace ((p0 - beta * p0) * (1 / 2)) with ((p0 - beta * p0) / 2) by lra.
    destruct (Rltb_spec (Rabs (p - (p0 - beta * p0) / 2)) (1/10000)) as [A|A]; [auto|].
    assert (E : exists e', law e = law e' /\ (e - et) * K + pt = (e' - et) * K + pt) by eauto.
    match goal with |- match (if ?c then _ else _) with _ => _ end => destruct c end; [exact E|].
    match goal with |- match (match ?X with _ => _ end) with _ => _ end => destruct X as [e1 r1| |] end; [|exact E|exact E].
    apply IH. exact E.
  Qed.
  (** Result of a one-variable scheme with hardening law [H] (in unscaled pressures). *)
  Definition implicit_result (H : R -> R) (M beta K ev P : R) (r : Rma R) : Prop :=
    exists e, let pc := H e in let pe := P + K * (e - ev) in
      rm_p r = into_range beta pc pe /\ on_ellipse M beta pc (rm_p r) (rm_q r) \/
      rm_p r = pe /\ rm_q r = M * sqrt ((pc - pe) * (beta * pc + pe)) /\ Rabs (pe - (1 - beta) / 2 * pc) < 1/10000 * H ev.
  Lemma onevar_run_spec : forall nit law dlaw lastexit cabs M beta K mu P Q ev p0t (H : R -> R), 0 < p0t -> 0 <= beta -> 0 <= M ->
    (forall e, 0 <= law e) -> (forall e, law e * p0t = H e) -> H ev = p0t ->
    let r := onevar_run nit law dlaw lastexit cabs M beta (K * (1 / p0t)) mu (P * (1 / p0t)) Q ev p0t in
    rm_plastic r = true /\ implicit_result H M beta K ev P r.
  Proof.
    intros nit law dlaw lastexit cabs M beta K mu P Q ev p0t H Hp Hb HM Hl HL Hev. unfold onevar_run.
    match goal with |- context [if ?c then 1%Z else 0%Z] => generalize (if c then 1%Z else 0%Z) end. intros right. rewrite ?nofZ_R.
    match goal with |- context [onevar_loop ?a ?b ?c ?d ?e ?f ?g ?h ?i ?j ?k ?l ?m ?n ?o ?p ?q ?r ?s] =>
      pose proof (onevar_inv a b c d e f g h i j k l m n o p q r s) as Inv; destruct (onevar_loop a b c d e f g h i j k l m n o p q r s) as [p' p0' ex'|p' p0' ex'] end.
    - destruct Inv as ((e & E0 & E1) & E2).
      { exists ev. split; [|ring]. apply (Rmult_eq_reg_r p0t); [|lra]. rewrite HL, Hev. ring. }
      cbn [rm_plastic]. split; auto. exists e. cbn [rm_p rm_q]. numR. right. rewrite q_scale by auto. rewrite <- HL, <- E0.
      assert (E3 : p' * p0t = P + K * (e - ev)) by (rewrite E1; field; lra). repeat split; auto.
      + rewrite <- E3. unfold mcc_q. numR. reflexivity.
      + rewrite Hev, <- E3. replace (p' * p0t - (1 - beta) / 2 * (p0' * p0t)) with ((p' - (p0' - beta * p0') / 2) * p0t) by field.
        rewrite Rabs_mult, (Rabs_pos_eq p0t) by lra. apply Rmult_lt_compat_r; auto.
    - destruct Inv as (e & E0 & E1).
      { exists ev. split; [|ring]. apply (Rmult_eq_reg_r p0t); [|lra]. rewrite HL, Hev. ring. }
      cbn [rm_plastic]. split; auto. exists e. cbn [rm_p rm_q]. numR. left. rewrite clamp_R, q_scale, into_range_scale by auto. rewrite <- HL, <- E0.
      assert (E3 : p' * p0t = P + K * (e - ev)) by (rewrite E1; field; lra). rewrite E3. split; auto. apply q_ellipse; auto. apply into_range_in.
      assert (0 <= p0' * p0t) by (rewrite E0; specialize (Hl e); nra). nra.
  Qed.
  Lemma cam_expand : forall M beta pc p q, M * M * (p * p + (beta - 1) * pc * p - beta * pc * pc) + q * q = cam_clay M beta pc p q.
  Proof. intros. unfold cam_clay, Rsqr. ring. Qed.
  Lemma implicit_exponential_onevar_spec : forall p q M p00 beta mu K xi ev, 0 < p00 -> 0 <= beta -> 0 <= M ->
    let r := MCCRMAImplicitExponentialOnevar uabs p q M p00 beta mu K xi ev in let H := fun e => p00 * exp (- xi * e) in
    (cam_clay M beta (H ev) p q <= 0 -> rm_plastic r = false /\ rm_exit r = false /\ rm_p r = p /\ rm_q r = q) /\
    (0 < cam_clay M beta (H ev) p q -> rm_plastic r = true /\ implicit_result H M beta K ev p r).
  Proof.
    intros p q M p00 beta mu K xi ev Hp Hb HM. unfold MCCRMAImplicitExponentialOnevar. rewrite ?nofZ_R. numR. cbv zeta.
    set (H := fun e => p00 * exp (- xi * e)). change (p00 * exp (- xi * ev)) with (H ev). rewrite cam_expand.
    assert (Hpos : forall e, 0 < H e) by (intros e; unfold H; apply Rmult_lt_0_compat; auto; apply exp_pos). pose proof (Hpos ev) as Hev.
    destruct (Rleb_spec (cam_clay M beta (H ev) p q) 0) as [L|L].
    - cbn [rm_exit rm_plastic rm_p rm_q]. split; [auto|intros; lra].
    - split; [intros; lra|]. intros _. apply onevar_run_spec; auto.
      + intros e. apply Rlt_le. apply Rmult_lt_0_compat; [|apply exp_pos]. apply Rmult_lt_0_compat; auto. apply Rdiv_lt_0_compat; lra.
      + intros e. change (H e) with (p00 * exp (- xi * e)). field. lra.
  Qed.
  Lemma implicit_sinh_onevar_spec : forall p q M p00 beta mu K xi ev, 0 < p00 -> 0 < K -> 0 <= beta -> 0 <= M ->
    let r := MCCRMAImplicitSinhOnevar p q M p00 beta mu K xi ev in let H := fun e => Rmax (1/100) (K * sinh (- xi * e + Rasinh (p00 / K))) in
    (cam_clay M beta (H ev) p q <= 0 -> rm_plastic r = false /\ rm_exit r = false /\ rm_p r = p /\ rm_q r = q) /\
    (0 < cam_clay M beta (H ev) p q -> rm_plastic r = true /\ implicit_result H M beta K ev p r).
  Proof.
    intros p q M p00 beta mu K xi ev Hp HK Hb HM. unfold MCCRMAImplicitSinhOnevar. rewrite ?cmax_R, ?nofZ_R. numR. cbv zeta.
    set (H := fun e => Rmax (1/100) (K * sinh (- xi * e + Rasinh (p00 / K)))). change (Rmax (1/100) (K * sinh (- xi * ev + Rasinh (p00 / K)))) with (H ev). rewrite cam_expand.
    assert (Hpos : forall e, 0 < H e) by (intros e; unfold H; pose proof (Rmax_l (1/100) (K * sinh (- xi * e + Rasinh (p00 / K)))); lra). pose proof (Hpos ev) as Hev.
    destruct (Rleb_spec (cam_clay M beta (H ev) p q) 0) as [L|L].
    - cbn [rm_exit rm_plastic rm_p rm_q]. split; [auto|intros; lra].
    - split; [intros; lra|]. intros _. apply onevar_run_spec; auto.
      + intros e. rewrite cmax_R. assert (0 < 1 / 100 * (1 / H ev)) by (apply Rmult_lt_0_compat; [lra|apply Rdiv_lt_0_compat; lra]).
        match goal with |- 0 <= Rmax ?a ?b => pose proof (Rmax_l a b) end. lra.
      + intros e. rewrite cmax_R. change (H e) with (Rmax (1/100) (K * sinh (- xi * e + Rasinh (p00 / K)))). replace (p00 * (1 / H ev) / (K * (1 / H ev))) with (p00 / K) by (field; lra).
        set (s := sinh (- xi * e + Rasinh (p00 / K))).
        assert (Mx : forall a b c, 0 < c -> Rmax a b * c = Rmax (a * c) (b * c)).
        { intros a b c Hc. unfold Rmax. destruct (Rle_dec a b), (Rle_dec (a * c) (b * c)); nra. }
        rewrite Mx by auto. f_equal; field; lra.
  Qed.
End RP.
