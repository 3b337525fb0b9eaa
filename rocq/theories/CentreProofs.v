(** * CentreProofs: the centre of mass of an isolated body. *)
From Coq Require Import Reals ZArith Lra Lia List Bool.
From Verif Require Import Num NumR Tools Lin Types Remesh Objects Transfer Rma Plastic Pbc Step Spec SpecStep SpecCentre LinProofs ResProofs
  KernelProofs GridProofs StencilProofs IndexProofs GradProofs AccumProofs P2GProofs ConsProofs MuslProofs RemeshProofs PloopProofs PbcProofs SpecMech StepProofs StepMech StepField.
Import ListNotations.
Local Open Scope R_scope.

Section CentreP.
  Context {G : Geo R} {GL : GeoLaws G}.
  Variable svd : TM -> TM * TV * TM.
  Variable uabs : R -> R.
  Theorem positions_total : forall af p sc s0 s1 l, valid_sched sc -> Run svd uabs af p sc s0 s1 l -> 0 < dx p -> GridOk p (s_axes s1) -> 0 < particle_mass p ->
    use_pbc p = false -> change_pos p = false -> objects p = [] -> s_plates s0 = [] ->
    (forall q, In q l -> no_tiny_weights p (s_axes s1) (q_x q)) -> (spline p = Deg1 -> forall q, In q l -> off_lines p (s_axes s1) (q_x q)) -> s_p s0 = pack l ->
    forall k, (k < dim)%nat ->
    Rsum (fun x => vget x k) (p_x (s_p s1)) = Rsum (fun x => vget x k) (p_x (s_p s0)) + s_dt s1 * (Rsum (fun v => vget v k) (p_v (s_p s0)) + INR (length l) * (s_dt s1 * vget (s_grav s1) k)).
  Proof.
    intros af p sc s0 s1 l V Rn Hdx GO Hm Hp Hc Ho Hpl Nt Ol Hp0 k Hk. set (axes := s_axes s1) in *. set (g1 := ru_g1 _ _ _ _ _ _ _ _ Rn). set (g2 := ru_g2 _ _ _ _ _ _ _ _ Rn).
    destruct (r_fin svd uabs af p sc s0 s1 l Rn) as (l1 & -> & F). rewrite Hp0. unfold pack. cbn [p_v p_x]. rewrite !Rsum_map.
    pose proof (pic_total p Hdx Hm axes GO l (r_cov svd uabs af p sc s0 s1 l Rn Hdx GO) Nt _ (vs_p2g sc V _) g1 (r_p2g svd uabs af p sc s0 s1 l Rn Hp) Ho (s_dt s1) (s_grav s1) _ g2 (vs_euler sc V _) (r_euler svd uabs af p sc s0 s1 l Rn Hpl) Ol k Hk) as Tp.
    set (pic := fun q : P1 R => Rsum (fun it => it_w it * Vn g2 (Z.to_nat (it_idx it)) k) (items_of p axes (q_x q))) in *.
    rewrite <- Tp, <- Rsum_scal, <- Rsum_plus. symmetry.
    apply (F2_Rsum _ _ (fun q => vget (q_x q) k + s_dt s1 * pic q) (fun q1 => vget (q_x q1) k) (fun q q1 => vget (q_x q) k + s_dt s1 * pic q = vget (q_x q1) k)); [auto|].
    refine (F2_trans _ _ _ _ _ _ _ _ _ _ (r_kins svd uabs af p sc s0 s1 l V Rn Hdx GO) F). intros q r q1 _ Ki Fi. cbv beta in Ki, Fi |- *.
    rewrite (fi_x _ _ _ _ Fi), (ki_x _ _ _ _ _ _ _ _ _ _ _ Ki). unfold pos_hack, pbc_wrap. rewrite Hp, Hc. rewrite vget_add, vget_lscale by auto.
    now rewrite (ga_pic _ _ _ _ _ _ _ (ki_g _ _ _ _ _ _ _ _ _ _ _ Ki) k Hk).
  Qed.
End CentreP.

Lemma projectile_constant : forall g steps x v, Forall (fun s => snd s = g) steps ->
  let T := Rsum fst steps in
  projectile x v steps = (x + v * T + g * (T * T + Rsum (fun s => fst s * fst s) steps) / 2, v + g * T).
Proof.
  intros g steps. induction steps as [|[dt g'] r IH]; intros x v F T; subst T; [cbn; f_equal; lra|]. pose proof (Forall_inv F) as E. pose proof (Forall_inv_tail F) as F'. cbn in E. subst g'.
  cbn [projectile]. rewrite IH by auto. cbn [Rsum map fst snd]. f_equal; cbn; field.
Qed.
