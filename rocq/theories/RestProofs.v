(** * RestProofs: nothing happens to an unloaded body at rest (C64). *)
From Coq Require Import Reals ZArith Lra Lia List Bool.
From Flocq Require Import Core.Raux.
From Verif Require Import Num NumR Tools Lin Types Remesh Objects Transfer Rma Plastic Pbc Step Spec SpecStep SpecPlastic SpecRest LinProofs ResProofs
  KernelProofs GridProofs StencilProofs PloopProofs PbcProofs StepProofs StepField PlasticProofs RmaProofs PlasticModels PlasticGlue PlateProofs StressProofs MaterialStep PropPlastic PropStep PropMaterial.
Import ListNotations.
Local Open Scope R_scope.

Section Rest.
  Context {G : Geo R} {GL : GeoLaws G}.
  Variable p : Par R.

  Definition quiet (nd : Node R) : Prop := nd_v nd = vzero /\ nd_flip nd = vzero /\ nd_f nd = vzero.

  Ltac v0 := apply vext; intros ? ?; autorewrite with geo; try unfold Rdiv; ring.
  Lemma vadd_00 : vadd vzero vzero = (vzero : TV). Proof using GL. v0. Qed.
  Lemma vsub_00 : vsub vzero vzero = (vzero : TV). Proof using GL. v0. Qed.
  Lemma vscale_0 : forall s, vscale vzero s = (vzero : TV). Proof using GL. intros. v0. Qed.
  Lemma lscale_0 : forall s, lscale s vzero = (vzero : TV). Proof using GL. intros. v0. Qed.
  Lemma vdivs_0 : forall s, vdivs vzero s = (vzero : TV). Proof using GL. intros. v0. Qed.
  Lemma madd_00 : madd mzero mzero = (mzero : TM). Proof using GL. apply mext. intros. autorewrite with geo. ring. Qed.
  Lemma mouter_0 : forall v, mouter vzero v = (mzero : TM). Proof using GL. intros. apply mext. intros. autorewrite with geo. ring. Qed.
  Lemma mscale_0 : forall s, mscale mzero s = (mzero : TM). Proof using GL. intros. apply mext. intros. autorewrite with geo. ring. Qed.

  Lemma upd_forall : forall X (Q : X -> Prop) l z f l', Forall Q l -> (forall x, Q x -> Q (f x)) -> upd l z f = Ok l' -> Forall Q l'.
  Proof using.
    intros X Q l z f l' H Hf E. apply upd_inv in E. destruct E as (_ & _ & N). apply Forall_forall. intros x Hx. apply In_nth_error in Hx. destruct Hx as (j & Hj).
    rewrite N in Hj. rewrite Forall_forall in H. destruct (Nat.eqb _ _); [|apply H; eapply nth_error_In; eauto].
    destruct (nth_error l j) as [y|] eqn:Ey; [|discriminate]. cbn in Hj. assert (x = f y) by congruence. subst x. apply Hf, H. eapply nth_error_In; eauto.
  Qed.
  Lemma combine_forall : forall X (Q : X -> Prop) (a b : list X), Forall Q a -> Forall Q b -> Forall (fun ab => Q (fst ab) /\ Q (snd ab)) (combine a b).
  Proof using. intros X Q a. induction a as [|x a IH]; intros [|y b] Ha Hb; cbn; constructor; inversion Ha; inversion Hb; subst; cbn; auto. Qed.

  (** ** Particle to grid *)
  Section P2g.
    Variables (axes : list (Axis R)) (P : Particles R).
    Hypothesis Hv : forall v, In v (p_v P) -> v = vzero.
    Hypothesis HB : flip_ratio p < 0 -> forall B, In B (p_B P) -> B = mzero.
    Hypothesis Ht : forall t, In t (p_tau P) -> t = mzero.

    Lemma getB : forall z B, (if (flip_ratio p <? nofZ 0)%num then rd (p_B P) z else Ok mzero) = Ok B -> B = mzero.
    Proof using HB.
      intros z B H. rewrite nofZ_R in H. numR. destruct (Rltb_spec (flip_ratio p) 0) as [L|L]; [apply (HB L); eapply rd_In; eauto|]. apply Ok_inj in H. now subst.
    Qed.
    Lemma p2g_quiet : forall sched nodes g, Forall quiet nodes -> p2g p axes P sched nodes = Ok g -> Forall quiet g.
    Proof using GL Hv HB Ht.
      intros sched nodes g Hn H. unfold p2g in H. apply bind_Ok in H. destruct H as (g' & A & H). apply Ok_inj in H. subst g.
      assert (Q : Forall quiet g').
      { unfold p2g_accumulate in A. eapply (foldM_inv (Forall quiet)); [exact Hn| |exact A]. intros th a a' _ Ha E. apply bind_Ok in E. destruct E as (l & E & E'). apply Ok_inj in E'. subst a'.
        assert (Ql : Forall quiet l).
        { unfold p2g_thread in E. eapply (foldM_inv (Forall quiet)); [|clear E|exact E].
          - apply Forall_forall. intros x Hx. apply repeat_spec in Hx. subst x. repeat split.
          - intros i b b' _ Hb E. unfold p2g_particle in E. cbv zeta in E. apply bind_Ok in E. destruct E as (xp & _ & E). apply bind_Ok in E. destruct E as (t & Et & E).
            apply bind_Ok in E. destruct E as (v & Ev & E). apply bind_Ok in E. destruct E as (B & EB & E). apply bind_Ok in E. destruct E as (m & _ & E). apply bind_Ok in E. destruct E as (items & _ & E).
            apply rd_In in Et, Ev. apply Ht in Et. apply Hv in Ev. apply getB in EB. subst t v B.
            eapply (foldM_inv (Forall quiet)); [exact Hb| |exact E]. intros it c c' _ Hc Ec. unfold p2g_item in Ec. destruct (_ <? _)%num; [|apply Ok_inj in Ec; now subst].
            eapply upd_forall; [exact Hc| |exact Ec]. intros nd (Q1 & Q2 & Q3). unfold p2g_node, quiet. cbn [nd_v nd_flip nd_f]. rewrite Q1, Q2, Q3, !mvec_0, !vscale_0, !vadd_00.
            destruct (_ <? _)%num; auto. }
        unfold merge. rewrite Forall_map. eapply Forall_impl; [|apply combine_forall; [exact Ha|exact Ql]]. intros [x y] ((X1 & X2 & X3) & Y1 & Y2 & Y3). cbn [fst snd] in *.
        unfold node_add, quiet. cbn [nd_v nd_flip nd_f]. rewrite X1, X2, X3, Y1, Y3, !vadd_00. auto. }
      rewrite Forall_map. eapply Forall_impl; [|exact Q]. intros nd (Q1 & Q2 & Q3). unfold p2g_finish_node, quiet. cbn [nd_v nd_flip nd_f]. rewrite Q1, Q2, Q3, vdivs_0. destruct (_ <? _)%num; auto.
    Qed.
    Lemma musl_quiet : forall sched nodes g, Forall quiet nodes -> musl_grid p axes P sched nodes = Ok g -> Forall quiet g.
    Proof using GL Hv HB.
      intros sched nodes g Hn H. unfold musl_grid in H. apply bind_Ok in H. destruct H as (g' & A & H). apply Ok_inj in H. subst g.
      assert (Q : Forall quiet g').
      { eapply (foldM_inv (Forall quiet)); [|clear A|exact A].
        - rewrite Forall_map. eapply Forall_impl; [|exact Hn]. intros nd (Q1 & Q2 & Q3). split; [reflexivity|auto].
        - intros th a a' _ Ha E. apply bind_Ok in E. destruct E as (l & E & E'). apply Ok_inj in E'. subst a'.
          assert (Ql : Forall quiet l).
          { eapply (foldM_inv (Forall quiet)); [|clear E|exact E].
            - apply Forall_forall. intros x Hx. apply repeat_spec in Hx. subst x. repeat split.
            - intros i b b' _ Hb E. unfold musl_particle in E. cbv zeta in E. apply bind_Ok in E. destruct E as (xp & _ & E).
              apply bind_Ok in E. destruct E as (v & Ev & E). apply bind_Ok in E. destruct E as (B & EB & E). apply bind_Ok in E. destruct E as (items & _ & E).
              apply rd_In in Ev. apply Hv in Ev. apply getB in EB. subst v B.
              eapply (foldM_inv (Forall quiet)); [exact Hb| |exact E]. intros it c c' _ Hc Ec. unfold musl_item in Ec. destruct (_ <? _)%num; [|apply Ok_inj in Ec; now subst].
              eapply upd_forall; [exact Hc| |exact Ec]. intros nd (Q1 & Q2 & Q3). unfold musl_node, quiet. cbn [nd_v nd_flip nd_f]. rewrite Q1, Q2, Q3, !mvec_0, !vscale_0, !vadd_00.
              destruct (_ <? _)%num; auto. }
          unfold musl_merge. rewrite Forall_map. eapply Forall_impl; [|apply combine_forall; [exact Ha|exact Ql]]. intros [x y] ((X1 & X2 & X3) & Y1 & Y2 & Y3). cbn [fst snd] in *.
          unfold quiet. cbn [nd_v nd_flip nd_f]. rewrite X1, X2, X3, Y1, !vadd_00. auto. }
      rewrite Forall_map. eapply Forall_impl; [|exact Q]. intros nd (Q1 & Q2 & Q3). unfold musl_finish_node, set_nv, quiet. cbn [nd_v nd_flip nd_f]. rewrite Q1, Q2, Q3, vdivs_0. destruct (_ <? _)%num; auto.
    Qed.
  End P2g.

  (** ** Obstacles at rest do not move a node at rest *)
  Lemma collide_0 : forall bc fr n v, collide bc fr n vzero = Ok v -> v = vzero.
  Proof using GL.
    intros bc fr n v H. unfold collide in H. destruct bc; [apply Ok_inj in H; now subst| |];
    (apply bind_Ok in H; destruct H as (m & _ & H); cbv zeta in H; assert (D : vdot vzero m = 0) by (unfold vdot; apply sumd_zero; intros; autorewrite with geo; numR; ring);
     rewrite nofZ_R in H; numR; rewrite D in H; destruct (Rltb_spec 0 0); [lra|]; apply Ok_inj in H; subst v).
    - apply vext. intros. autorewrite with geo. ring.
    - reflexivity.
  Qed.
  Lemma fric2_0 : forall fr, plate_fric2 fr 0 0 = 0.
  Proof using.
    intros fr. unfold plate_fric2. rewrite ?nofZ_R. numR. cbn [nabs NumR]. rewrite Rabs_R0. destruct (Reqb_spec fr 0); auto.
    destruct (Rltb_spec 0 (fr * 0)); auto. destruct (Rltb_spec 0 0); lra.
  Qed.
  Lemma fric3_0 : forall fr, plate_fric3 fr 0 0 0 = (0, 0).
  Proof using.
    intros fr. unfold plate_fric3. cbv zeta. rewrite ?nofZ_R. numR. cbn [nabs nsqrt NumR]. rewrite Rabs_R0. destruct (Reqb_spec fr 0); auto.
    replace (0 * 0 + 0 * 0) with 0 by ring. rewrite sqrt_0. destruct (Rleb_spec 0 (fr * 0)); [auto|lra].
  Qed.
  Lemma slide_0 : forall fr t, plate_slide fr t vzero = vzero.
  Proof using GL.
    intros fr t. unfold plate_slide. assert (D0 : (0 < dim)%nat) by (destruct gl_dim; lia). assert (D1 : (1 < dim)%nat) by (destruct gl_dim; lia).
    destruct gl_dim as [D|D]; rewrite D; cbv iota.
    - destruct t; try reflexivity; cbn [plate_axis Nat.eqb]; rewrite ?vget_zero by auto; rewrite fric2_0, nofZ_R; apply vext; intros k Hk; rewrite !vget_set, !vget_zero by auto;
      repeat match goal with |- context [if ?b then _ else _] => destruct b end; reflexivity.
    - assert (D2 : (2 < dim)%nat) by lia.
      destruct t; cbn [plate_axis plate_tan]; rewrite !vget_zero by auto; rewrite fric3_0, nofZ_R; apply vext; intros k Hk; rewrite !vget_set, !vget_zero by auto;
      repeat match goal with |- context [if ?b then _ else _] => destruct b end; reflexivity.
  Qed.
  Lemma boundary_0 : forall plates dt fr X v, Forall (fun pl => pl_v pl = vzero /\ pl_v0 pl = vzero) plates -> boundaryCollision p plates dt fr X vzero = Ok v -> v = vzero.
  Proof using GL.
    intros plates dt fr X v Hp H. unfold boundaryCollision in H. cbv zeta in H. apply bind_Ok in H. destruct H as (w & O & H). apply Ok_inj in H. subst v.
    assert (w = vzero).
    { unfold objects_loop in O. eapply (foldM_inv (fun w => w = vzero)); [reflexivity| |exact O]. intros o a a' _ -> E. apply bind_Ok in E. destruct E as (c & _ & E).
      destruct c; [eapply collide_0; eauto|]. apply Ok_inj in E. auto. }
    subst w. clear O. unfold plates_loop. generalize (vadd X (lscale dt vzero)). intros Y. induction Hp as [|pl plates (Ev & _) Hp IH]; cbn [fold_left]; [reflexivity|].
    destruct (plate_inside pl Y); [|exact IH]. replace (plate_collide (use_mibf p) fr pl vzero) with (vzero : TV); [exact IH|].
    unfold plate_collide. cbv zeta. rewrite Ev, vsub_00, slide_0. destruct (pl_bc pl); [| |destruct (plate_towards _ _)]; now rewrite vadd_00.
  Qed.
  Lemma euler_quiet : forall plates dt axes sched nodes g, Forall (fun pl => pl_v pl = vzero /\ pl_v0 pl = vzero) plates -> Forall quiet nodes ->
    euler p plates dt vzero axes sched nodes = Ok g -> Forall quiet g.
  Proof using GL.
    intros plates dt axes sched nodes g Hp Hn H. unfold euler in H. apply bind_Ok in H. destruct H as (nl & _ & H). eapply (foldM_inv (Forall quiet)); [exact Hn| |exact H].
    intros k a a' _ Ha E. apply bind_Ok in E. destruct E as (ix & _ & E). apply bind_Ok in E. destruct E as (nd & En & E). apply bind_Ok in E. destruct E as (nd' & En' & E).
    apply rd_In in En. pose proof (proj1 (Forall_forall _ _) Ha nd En) as (Q1 & Q2 & Q3).
    eapply upd_forall; [exact Ha| |exact E]. intros y0 _. unfold euler_node in En'. cbv zeta in En'. destruct (_ <? _)%num; [|apply Ok_inj in En'; subst nd'; now split].
    apply bind_Ok in En'. destruct En' as (v & Ev & En'). apply Ok_inj in En'. subst nd'. rewrite Q1, Q3, !lscale_0, vdivs_0, !vadd_00 in Ev. apply boundary_0 in Ev; auto. subst v.
    split; [reflexivity|]. split; [|exact Q3]. cbn [nd_flip]. now rewrite Q1, vsub_00.
  Qed.
  Lemma moved_calm : forall dt fd t plates, Forall (fun pl => pl_v pl = vzero /\ pl_v0 pl = vzero) plates -> Forall (fun pl => pl_v pl = vzero /\ pl_v0 pl = vzero) (map (@plate_move R _ G dt fd t) plates).
  Proof using GL.
    intros dt fd t plates H. rewrite Forall_map. eapply Forall_impl; [|exact H]. intros pl (_ & E). unfold plate_move. cbv zeta. rewrite E, vscale_0.
    destruct (pl_type pl); try destruct dim as [|[|[|[|]]]]; cbn; auto.
  Qed.

  (** ** Grid to particle *)
  Lemma gather_0 : forall (f : Item R -> Node R -> TV -> TV) nodes items v, Forall quiet nodes -> (forall it nd, quiet nd -> f it nd vzero = vzero) -> gather f nodes items = Ok v -> v = vzero.
  Proof using.
    intros f nodes items v Hn Hf H. unfold gather in H. eapply (foldM_inv (fun v => v = vzero)); [reflexivity| |exact H]. intros it a a' _ -> E. apply bind_Ok in E. destruct E as (nd & En & E). apply Ok_inj in E. subst a'.
    apply Hf. apply rd_In in En. exact (proj1 (Forall_forall _ _) Hn nd En).
  Qed.
  Lemma gatherM_0 : forall (f : Item R -> Node R -> TM -> TM) nodes items v, Forall quiet nodes -> (forall it nd, quiet nd -> f it nd mzero = mzero) -> gatherM f nodes items = Ok v -> v = mzero.
  Proof using.
    intros f nodes items v Hn Hf H. unfold gatherM in H. eapply (foldM_inv (fun v => v = mzero)); [reflexivity| |exact H]. intros it a a' _ -> E. apply bind_Ok in E. destruct E as (nd & En & E). apply Ok_inj in E. subst a'.
    apply Hf. apply rd_In in En. exact (proj1 (Forall_forall _ _) Hn nd En).
  Qed.
  Lemma vgrad_0 : forall nodes items v, Forall quiet nodes -> g_vgrad nodes items = Ok v -> v = mzero.
  Proof using GL. intros nodes items v Hn H. eapply gatherM_0; [exact Hn| |exact H]. intros it nd (Q1 & _). rewrite Q1, mouter_0, madd_00. reflexivity. Qed.
  Lemma F_trial_rest : forall dt (F : TM), F_trial dt mzero F = F.
  Proof using GL.
    intros dt F. unfold F_trial. replace (mlscale dt mzero) with (mzero : TM) by (apply mext; intros; autorewrite with geo; ring). rewrite mmul_0_l. apply mext. intros. autorewrite with geo. ring.
  Qed.
End Rest.

(** ** The stress update of an undeformed particle *)
Section RestStress.
  Context {G : Geo R} {GL : GeoLaws G}.
  Variable HG : two_or_three G.
  Variables (svd : TM -> TM * TV * TM) (uabs : R -> R) (p : Par R).
  Hypothesis Sv : svd_ok svd.

  Lemma mdiag_ones : mdiag vones = (mident : TM).
  Proof using GL. mx. destruct (Nat.eqb _ _) eqn:E; [|reflexivity]. apply Nat.eqb_eq in E. subst. now rewrite vget_ones by auto. Qed.
  Lemma svd_ident : forall U s V, svd mident = (U, s, V) -> forall k, (k < dim)%nat -> vget s k = 1.
  Proof using GL Sv.
    intros U s V E k Hk. pose proof (Sv _ _ _ _ E) as S. assert (OI : orthogonal (mident : TM)) by (split; rewrite mtr_ident; apply mmul_id_l).
    destruct S as [OU OV EF Hs].
    assert (M : conj U (mdiag (vtab (fun k => (vget s k)²))) = mident).
    { assert (S' : is_svd (mmul mident mident) U s V) by (rewrite mmul_id_l; now constructor).
      assert (I1 : mident = mmul (mmul mident (mdiag vones)) (mtr mident) :> TM) by (rewrite mmul_id_l, mtr_ident, mmul_id_r; symmetry; apply mdiag_ones).
      assert (S1 : is_svd mident mident vones mident) by (constructor; auto; intros; rewrite vget_ones by auto; lra).
      rewrite (cauchy_green mident mident mident mident U V vones s S1 S'). unfold conj. rewrite !mmul_id_l, !mtr_ident, !mmul_id_r. mx. rewrite vget_tab, vget_ones by auto.
      destruct (Nat.eqb _ _); unfold Rsqr; ring. }
    assert (D : mdiag (vtab (fun k => (vget s k)²)) = (mident : TM)).
    { transitivity (mmul (mmul (mtr U) (conj U (mdiag (vtab (fun k => (vget s k)²))))) U).
      - unfold conj. rewrite !mmul_assoc, (proj1 OU), mmul_id_r, <- (mmul_assoc (mtr U) U), (proj1 OU), mmul_id_l. reflexivity.
      - rewrite M, mmul_id_r. apply OU. }
    assert (Q : mget (mdiag (vtab (fun k => (vget s k)²))) k k = mget (mident : TM) k k) by now rewrite D.
    autorewrite with geo in Q. rewrite Nat.eqb_refl in Q. rewrite vget_tab in Q by auto. unfold Rsqr in Q. specialize (Hs k Hk). nra.
  Qed.
  Lemma trial_ident : forall U s V, svd mident = (U, s, V) -> forall k, (k < dim)%nat -> vget (t_e (trial s)) k = 0.
  Proof using GL Sv.
    intros U s V E k Hk. rewrite trial_form. cbn [t_e]. unfold fv. rewrite vget_tab by auto. rewrite (svd_ident _ _ _ E k Hk). unfold lf. rewrite Rabs_R1, Rmax_left by lra. apply ln_1.
  Qed.
  Lemma prad_rest : forall dt t h r, return_map uabs p dt t h = Ok r -> r_cnt r = 0%nat -> h_prad (r_h r) = h_prad h \/ h_prad (r_h r) = 0.
  Proof using.
    intros dt t h r H C. unfold return_map in H.
    assert (MC : pl_MCC uabs p dt t h = Ok r -> h_prad (r_h r) = h_prad h \/ h_prad (r_h r) = 0).
    { intros E. unfold pl_MCC in E. cbv zeta in E. destruct (mcc_rma _ _ _ _ _ _) as [[r0 pc]|]; [|discriminate]. destruct (rm_plastic r0).
      - match type of E with (let '(_, _) := ?x in _) = _ => destruct x as [[b qs] ex] end. apply bind_Ok in E. destruct E as (h2 & _ & E). apply Ok_inj in E. subst r. discriminate.
      - apply Ok_inj in E. subst r. left. cbn. destruct (use_mibf p); reflexivity. }
    destruct (plastic_model p) eqn:Pm; try exact (MC H); clear MC; unfold pl_VM, pl_DP, pl_DPSoft, pl_VMVisc, pl_DPVisc, pl_DPMui, pl_MCCMui in H; cbv zeta in H;
    repeat match type of H with
    | Ok ?x = Ok _ => apply Ok_inj in H
    | context [let '(_, _) := ?x in _] => destruct x
    | context [match mcc_rma ?a ?b ?c ?d ?e ?f with _ => _ end] => destruct (mcc_rma a b c d e f) as [[? ?]|]
    | context [if ?b then _ else _] => destruct b
    | UB = Ok _ => discriminate
    end; subst r; cbn in C |- *; try discriminate; auto; right; unfold Rdiv; ring.
  Qed.
  Lemma undeformed : forall dt tau h o, 0 < dt -> elastic p -> sane p -> unloaded p h -> plasticity svd uabs p dt mident tau h = Ok o ->
    o_F o = mident /\ o_tau o = mzero /\ unloaded p (o_h o) /\ h_dev (o_h o) = h_dev h /\ h_vol (o_h o) = h_vol h /\ o_exit o = false.
  Proof using GL HG Sv.
    intros dt tau h o Hdt El Sa (Hp & Hd) H. pose proof H as H0. apply plast_inv in H. destruct H as (U & s & V & r & Es & Hr & HF & Ht & Hh & Hc & He).
    assert (Z : t_e (trial s) = vzero) by (apply vext; intros; rewrite (trial_ident _ _ _ Es) by auto; now rewrite vget_zero by auto).
    assert (HT : hencky_tau p U (t_e (trial s)) = mzero).
    { rewrite Z. unfold hencky_tau. replace (mdiag (principal_stress p vzero)) with (mzero : TM); [now rewrite mmul_0_r, mmul_0_l|].
      symmetry. mx. destruct (Nat.eqb _ _); [|reflexivity]. unfold principal_stress. autorewrite with geo. replace (vsum (vzero : TV)) with 0; [numR; ring|].
      symmetry. unfold vsum. apply sumd_zero. intros. now rewrite vget_zero by auto. }
    destruct Hd as [Np|(Hk & [De|(Pm & Hc0)])].
    - unfold return_map in Hr. rewrite Np in Hr. apply Ok_inj in Hr. subst r. cbn [r_upd r_hencky r_h r_cnt r_exit] in *. rewrite Hh, He, HF.
      split; [reflexivity|]. split; [|split; [split; auto|auto]]. rewrite Ht, HF. destruct (elastic_model p); [exact HT|].
      rewrite neo_eq by (auto; rewrite mdet_ident by auto; lra). unfold neo_hookean_stress. rewrite mtr_ident, mmul_id_l, mdet_ident, ln_1 by auto. mx. ring.
    - destruct (trial_pq svd p El Sv _ _ _ _ Es) as (_ & _ & _ & ET & _). rewrite HT in ET.
      assert (P0 : pressure (mzero : TM) = 0 /\ shear (q_prefac p) (mzero : TM) = 0).
      { assert (P0 : pressure (mzero : TM) = 0) by (unfold pressure; rewrite sumd_zero; [unfold Rdiv; ring|intros; now rewrite mget_zero by auto]).
        split; [exact P0|]. unfold shear. rewrite sumd_zero; [rewrite sqrt_0; ring|]. intros i Hi. apply sumd_zero. intros j Hj. rewrite mget_zero, P0 by auto. destruct (Nat.eqb _ _); unfold Rsqr; ring. }
      destruct (C34_elastic_states G HG svd uabs p dt mident tau h o ltac:(unfold updated; auto 10)) as (A1 & A2 & A3 & A4 & A5 & A6).
      { rewrite ET. destruct P0 as (-> & ->). exact De. }
      rewrite A1, A2, A3, A4, A6. split; [reflexivity|]. split; [exact ET|]. split; [|auto].
      assert (Pr : h_prad (o_h o) = 0) by (rewrite Hh; rewrite Hc in A5; destruct (prad_rest _ _ _ _ Hr A5); congruence).
      split; [exact Pr|]. right. split; [exact Hk|]. left. revert De. unfold elastic_domain, vol_shift. rewrite A3, A4, Pr, Hp. auto.
    - assert (T0 : t_tr (trial s) = 0 /\ t_n (trial s) = 0).
      { pose proof (svd_ident _ _ _ Es) as S1. assert (L1 : lf 1 = 0) by (unfold lf; rewrite Rabs_R1, Rmax_left by lra; apply ln_1).
        assert (Tr0 : tr_of s = 0) by (unfold tr_of; apply sumd_zero; intros k Hk'; now rewrite (S1 k Hk')).
        rewrite trial_form. cbn [t_tr t_n]. split; [exact Tr0|]. unfold n_of. rewrite Tr0, sumd_zero; [apply sqrt_0|]. intros k Hk'. rewrite (S1 k Hk'), L1. unfold Rdiv. ring. }
      destruct T0 as (T1 & T2).
      assert (Vones : rebuild U V vzero = mident).
      { unfold rebuild. destruct (Sv _ _ _ _ Es) as [_ _ EF _]. rewrite EF. f_equal. f_equal. f_equal. apply vext. intros k Hk'. rewrite (svd_ident _ _ _ Es k Hk'). unfold vmap. rewrite vget_tab, vget_zero by auto. cbn. apply exp_0. }
      assert (Iz : iso p 0 = vzero) by (unfold iso; apply vext; intros; autorewrite with geo; numR; unfold Rdiv; ring).
      assert (HT0 : hencky_tau p U vzero = mzero) by (rewrite <- Z; exact HT).
      assert (Done : r_hencky r = vzero -> r_upd r = Rebuild -> h_dev (r_h r) = h_dev h -> h_vol (r_h r) = h_vol h -> h_prad (r_h r) = 0 -> r_exit r = false ->
        o_F o = mident /\ o_tau o = mzero /\ unloaded p (o_h o) /\ h_dev (o_h o) = h_dev h /\ h_vol (o_h o) = h_vol h /\ o_exit o = false).
      { intros R1 R2 R3 R4 R5 R6. rewrite Ht, HF, Hk, Hh, He, R1, R2, Vones, HT0. split; [reflexivity|]. split; [reflexivity|]. split; [|auto]. split; [exact R5|]. right. auto. }
      clear Hh Hc He HF Ht. unfold return_map in Hr. pose proof (sa_M p Sa) as HM. destruct Pm as [Pm|Pm]; rewrite Pm in Hr; apply Ok_inj in Hr.
      + unfold pl_DP in Hr. cbv zeta in Hr. numR. rewrite T1, T2, Hc0 in Hr. assert (E10 : e10 = 1/10000000000) by (unfold e10; reflexivity). rewrite E10 in Hr.
        destruct (Rltb_spec (Mfric p * (- bulkK p * 0) + 0) (1/10000000000)) as [_|N]; [|exfalso; apply N; lra]. replace (- 0 / Mfric p) with 0 in Hr by (unfold Rdiv; ring). rewrite Iz in Hr.
        apply Done; rewrite <- Hr; cbn [r_hencky r_upd r_h r_exit h_dev h_vol h_prad add_vol add_dev set_dg]; numR; auto; unfold Rdiv; ring.
      + unfold pl_DPSoft in Hr. cbv zeta in Hr. numR. rewrite T1, T2, Hc0 in Hr. replace (- 0 / Mfric p) with 0 in Hr by (unfold Rdiv; ring). rewrite !Rmult_0_l in Hr.
        replace (- bulkK p * 0 + (if use_pradhana p then - bulkK p * h_prad h else #0%num)) with 0 in Hr by (rewrite Hp, nofZ_R; destruct (use_pradhana p); ring).
        destruct (Rleb_spec 0 0) as [_|N]; [|exfalso; lra]. rewrite Iz in Hr.
        apply Done; rewrite <- Hr; destruct (use_pradhana p); cbn [r_hencky r_upd r_h r_exit h_dev h_vol h_prad add_vol add_dev set_dg set_prad]; numR; auto; rewrite ?Hp; unfold Rdiv; ring.
  Qed.
End RestStress.

Section RestStep.
  Context {G : Geo R} {GL : GeoLaws G}.
  Variable HG : two_or_three G.
  Variables (svd : TM -> TM * TV * TM) (uabs : R -> R) (p : Par R).
  Hypothesis Sv : svd_ok svd.
  Hypothesis El : elastic p.
  Hypothesis Sa : sane p.
  Hypothesis Hm : 0 < min_dt p.

  (** A particle at rest; [qr_mid] also after the grid-to-particle transfer. *)
  Definition qrest (q : P1 R) : Prop :=
    q_v q = vzero /\ (flip_ratio p < 0 -> q_B q = mzero) /\ q_F q = mident /\ q_tau q = mzero /\ unloaded p (q_h q).
  Definition qstill (q q' : P1 R) : Prop :=
    qrest q' /\ q_pic q' = vzero /\ q_flip q' = vzero /\ q_x q' = q_x q /\ h_dev (q_h q') = h_dev (q_h q) /\ h_vol (q_h q') = h_vol (q_h q).

  Lemma new_velocity_rest : forall q, q_v q = vzero -> q_pic q = vzero -> q_flip q = vzero -> new_velocity p q = vzero.
  Proof using GL. intros q A B C. unfold new_velocity. cbv zeta. rewrite A, B, C, vadd_00, !lscale_0, vadd_00. destruct (_ <? _)%num; [auto|]. destruct (_ <? _)%num; auto. Qed.
  Lemma strain_rest : forall dt q q' fl, 0 < dt -> qrest q -> q_pic q = vzero -> q_flip q = vzero -> strain_particle (plast svd uabs) p dt mzero q = Ok (q', fl) -> qstill q q' /\ fst fl = false.
  Proof using GL HG Sv El Sa.
    intros dt q q' fl Hdt (A & B & C & D & E) F1 F2 H. unfold strain_particle in H. apply bind_Ok in H. destruct H as (o & Ho & H). apply Ok_inj, pair_equal_spec in H. destruct H as (<- & <-).
    rewrite F_trial_rest, C in Ho. destruct (undeformed HG svd uabs p Sv dt _ _ o Hdt El Sa E Ho) as (O1 & O2 & O3 & O4 & O5 & O7). split; [|exact O7].
    unfold qstill, qrest. cbn [q_v q_B q_F q_tau q_h q_pic q_flip q_x]. auto 15.
  Qed.
  Lemma g2p_rest : forall axes nodes dt q q' fl, 0 < dt -> Forall quiet nodes -> qrest q -> g2p_particle (plast svd uabs) p axes nodes dt q = Ok (q', fl) -> qstill q q' /\ fst fl = false.
  Proof using GL HG Sv El Sa.
    intros axes nodes dt q q' fl Hdt Hn (A & B & C & D & E) H. unfold g2p_particle in H. cbv zeta in H. apply bind_Ok in H. destruct H as (items & _ & H).
    apply bind_Ok in H. destruct H as (pic & H1 & H). apply bind_Ok in H. destruct H as (vg & H2 & H). apply bind_Ok in H. destruct H as (Bm & H3 & H). apply bind_Ok in H. destruct H as (fv & H4 & H).
    assert (pic = vzero) by (eapply gather_0; [exact Hn| |exact H1]; intros it nd (Q & _); cbn beta; now rewrite Q, vscale_0, vadd_00).
    assert (vg = mzero) by (eapply vgrad_0; eauto).
    assert (Bm = mzero).
    { destruct (_ <? _)%num; [|apply Ok_inj in H3; auto]. eapply gatherM_0; [exact Hn| |exact H3]. intros it nd (Q & _). cbn beta. now rewrite Q, mouter_0, mscale_0, madd_00. }
    assert (fv = vzero).
    { destruct (_ <=? _)%num in H4; [|apply Ok_inj in H4; auto]. eapply gather_0; [exact Hn| |exact H4]. intros it nd (_ & Q & _). cbn beta. now rewrite Q, vscale_0, vadd_00. }
    subst pic vg Bm fv. destruct (use_musl p).
    - apply Ok_inj, pair_equal_spec in H. destruct H as (<- & <-). split; [|reflexivity]. unfold qstill, qrest. cbn [q_v q_B q_F q_tau q_h q_pic q_flip q_x]. auto 15.
    - apply strain_rest in H; auto. unfold qrest. cbn [q_v q_B q_F q_tau q_h q_pic q_flip q_x]. auto 10.
  Qed.
  Lemma def_rest : forall axes nodes dt q q' fl, 0 < dt -> Forall quiet nodes -> qrest q -> q_pic q = vzero -> q_flip q = vzero ->
    def_particle (plast svd uabs) p axes nodes dt q = Ok (q', fl) -> qstill q q' /\ fst fl = false.
  Proof using GL HG Sv El Sa.
    intros axes nodes dt q q' fl Hdt Hn (A & B & C & D & E) F1 F2 H. unfold def_particle in H. apply bind_Ok in H. destruct H as (items & _ & H). apply bind_Ok in H. destruct H as (vg & H2 & H).
    assert (vg = mzero) by (eapply vgrad_0; eauto). subst vg. apply strain_rest in H; auto. unfold qrest. cbn [q_v q_B q_F q_tau q_h q_pic q_flip q_x].
    repeat split; auto; destruct E as (E1 & E2); auto.
  Qed.
  Lemma move_rest : forall dt q q' x, stay p [x] -> q_x q = x -> qstill q q' -> qrest (move_of p dt q') /\ q_x (move_of p dt q') = x /\
    h_dev (q_h (move_of p dt q')) = h_dev (q_h q) /\ h_vol (q_h (move_of p dt q')) = h_vol (q_h q).
  Proof using GL.
    intros dt q q' x (Hc & Hb) Ex ((A & B & C & D & E) & F1 & F2 & F3 & F4 & F5). unfold move_of. cbv zeta.
    assert (X : pos_hack p (pbc_wrap p (vadd (q_x q') (lscale dt (q_pic q')))) = x).
    { rewrite F1, F3, Ex, lscale_0, vadd_0_r. unfold pos_hack. rewrite Hc. unfold pbc_wrap. destruct (use_pbc p); [|reflexivity]. specialize (Hb eq_refl x (or_introl eq_refl)).
      rewrite nofZ_R. numR. destruct (Rltb_spec (Lx p) (vget x 0)); [lra|]. destruct (Rltb_spec (vget x 0) 0); [lra|]. reflexivity. }
    rewrite X. rewrite new_velocity_rest by auto. unfold qrest, set_x, set_v. destruct (use_musl p); cbn [q_v q_B q_F q_tau q_h q_pic q_flip q_x]; auto 15.
  Qed.
  Lemma resting_pack : forall xs es l, resting p xs es (pack l) <-> map q_x l = xs /\ map (fun q => (h_dev (q_h q), h_vol (q_h q))) l = es /\ Forall qrest l.
  Proof using.
    intros xs es l. split.
    - intros [A B C D E F H]. unfold pack in *. cbn [p_x p_v p_B p_F p_tau p_hist] in *. rewrite !Forall_map in *. rewrite map_map in H. split; [auto|]. split; [auto|].
      rewrite !Forall_forall in *. intros q Hq. unfold qrest. split; [auto|]. split; [intros Hf; specialize (C Hf); auto|]. auto.
    - intros (A & B & C). rewrite Forall_forall in C. constructor; unfold pack; cbn [p_x p_v p_B p_F p_tau p_hist]; rewrite ?Forall_map, ?Forall_forall, ?map_map; auto; intros; apply C; auto.
  Qed.
  Lemma stay_in : forall xs x, stay p xs -> In x xs -> stay p [x].
  Proof using. intros xs x (A & B) H. split; [auto|]. intros Hb y [<-|[]]. auto. Qed.

  Theorem rest_step : forall af sc s0 s1 n xs es, valid_sched sc -> well_formed s0 n -> stay p xs -> resting p xs es (s_p s0) -> calm s0 ->
    advanceStep svd uabs af p sc s0 = Ok s1 -> resting p xs es (s_p s1) /\ calm s1 /\ s_exit s1 = s_exit s0 /\ Forall quiet (s_nodes s1).
  Proof using GL HG Sv El Sa Hm.
    intros af sc s0 s1 n xs es V W St Re (C1 & C2 & C3) H. pose proof (step_dt_pos G HG svd uabs af p sc s0 s1 Hm H) as Hdt.
    destruct (wf_pack s0 n W) as (l & L & E0 & N0 & F0). destruct (step_run svd uabs af p sc s0 s1 l V E0 N0 F0 H) as [[axes ms g1 g2 rs _ _ Hp He Hg Hr _ _ _ _ Gf]].
    destruct (step_keep svd uabs af p sc s0 s1 H) as (_ & _ & _ & Hpl & _). destruct (step_dt_grav svd uabs af p sc s0 s1 H) as (_ & Hgr & _).
    assert (Gz : s_grav s1 = vzero).
    { rewrite Hgr, C1, C2. unfold gravity_of. destruct (gravity_special p); auto. destruct (_ <? _)%num; auto. now rewrite vscale_0, vdivs_0. }
    rewrite E0 in Re. apply resting_pack in Re. destruct Re as (Rx & Rh & Rq).
    assert (Gq : Forall qrest (l ++ ghosts p 4 l (sc_pbc sc (length l)))).
    { apply Forall_app. split; [auto|]. apply Forall_forall. intros q Hq. unfold ghosts in Hq. apply in_flat_map in Hq. destruct Hq as (i & _ & Hq). destruct (nth_error l i) as [q0|] eqn:Ei; [|destruct Hq].
      apply nth_error_In in Ei. rewrite Forall_forall in Rq. specialize (Rq _ Ei). unfold ghost in Hq. destruct (pbc_image _ _ _); [|destruct Hq]. destruct Hq as [<-|[]]. exact Rq. }
    assert (GP : exists l', Forall qrest l' /\ forall f : unit, p_v (grid_particles p sc l) = map q_v l' /\ p_B (grid_particles p sc l) = map q_B l' /\ p_tau (grid_particles p sc l) = map q_tau l').
    { unfold grid_particles. destruct (use_pbc p).
      - exists (l ++ ghosts p 4 l (sc_pbc sc (length l))). split; [exact Gq|]. intros _. cbn [ext p_v p_B p_tau]. now rewrite !map_app.
      - exists l. split; [exact Rq|]. intros _. now cbn. }
    destruct GP as (l' & Rl & GP). destruct (GP tt) as (G1 & G2 & G3). rewrite Forall_forall in Rl.
    assert (Q1 : Forall quiet g1).
    { eapply (p2g_quiet p axes (grid_particles p sc l)); [| | | |exact Hp].
      - intros v Hv. rewrite G1 in Hv. apply in_map_iff in Hv. destruct Hv as (q & <- & Hq). apply (Rl q Hq).
      - intros Hf v Hv. rewrite G2 in Hv. apply in_map_iff in Hv. destruct Hv as (q & <- & Hq). now apply (Rl q Hq).
      - intros v Hv. rewrite G3 in Hv. apply in_map_iff in Hv. destruct Hv as (q & <- & Hq). apply (Rl q Hq).
      - apply Forall_forall. intros x Hx. apply repeat_spec in Hx. subst x. repeat split. }
    rewrite Gz in He. assert (Q2 : Forall quiet g2) by (eapply euler_quiet; eauto).
    assert (Cs : calm s1).
    { split; [exact Gz|]. split; [now rewrite Gf|]. rewrite Hpl. now apply moved_calm. }
    (* the transfer back *)
    assert (R1 : Forall2 (fun q r => qstill q (fst r) /\ fst (snd r) = false) l rs).
    { clear - GL HG Sv El Sa Hdt Q2 Rq Hg. revert rs Hg. induction Rq as [|q l Hq Hl IH]; intros rs Hg; cbn [mapM] in Hg.
      - apply Ok_inj in Hg. subst rs. constructor.
      - apply bind_Ok in Hg. destruct Hg as ([q' fl] & E1 & Hg). apply bind_Ok in Hg. destruct Hg as (rs' & E2 & Hg). apply Ok_inj in Hg. subst rs. constructor; [|auto].
        cbn [fst snd]. eapply g2p_rest; eauto. }
    assert (Fin : forall rs' : list (P1 R * Flags), Forall2 (fun q r => qstill q (fst r) /\ fst (snd r) = false) l rs' ->
      resting p xs es (pack (map (fun r => move_of p (s_dt s1) (fst r)) rs')) /\ existsb (fun r => fst (snd r)) rs' = false).
    { intros rs' HR. split.
      - apply resting_pack. rewrite !map_map. rewrite <- Rx, <- Rh. assert (St' : forall q, In q l -> stay p [q_x q]) by (intros q Hq; eapply stay_in; [exact St|]; rewrite <- Rx; now apply in_map).
        clear - GL HR St'. induction HR as [|q r l rs' (Hr & _) HR IH]; cbn [map]; [repeat split; constructor|]. destruct (IH (fun q' Hq' => St' q' (or_intror Hq'))) as (A & B & C).
        destruct (move_rest (s_dt s1) q (fst r) (q_x q) (St' q (or_introl eq_refl)) eq_refl Hr) as (M1 & M2 & M3 & M4). split; [|split; [|constructor; auto]]; f_equal; auto. f_equal; [exact M3|exact M4].
      - clear - HR. induction HR as [|q r l rs' (_ & Hr) HR IH]; cbn [existsb]; [reflexivity|]. now rewrite Hr. }
    destruct (Fin rs R1) as (_ & X1). destruct (use_musl p) eqn:Mu.
    - destruct Hr as (g3 & rs3 & M1 & M2 & M3 & M4 & M5).
      assert (B1 : Forall2 (fun q q' => qstill q q') l (map (fun r => blend_of p (fst r)) rs)).
      { clear - GL R1. induction R1 as [|q r l rs (Hr & _) R1 IH]; cbn [map]; constructor; auto. destruct Hr as ((A & B & C & D & E) & F1 & F2 & F3 & F4 & F5).
        unfold qstill, qrest, blend_of, set_v. cbn [q_v q_B q_F q_tau q_h q_pic q_flip q_x]. rewrite new_velocity_rest by auto. auto 15. }
      assert (Q3 : Forall quiet g3).
      { assert (Bs : forall q, In q (map (fun r => blend_of p (fst r)) rs) -> qrest q).
        { clear - B1. induction B1 as [|q q' l l' Hq B1 IH]; intros y Hy; [destruct Hy|]. destruct Hy as [<-|Hy]; [apply Hq|auto]. }
        eapply (musl_quiet p axes (pack (map (fun r => blend_of p (fst r)) rs))); [| |exact Q2|exact M1]; unfold pack; cbn [p_v p_B].
        - intros v Hv. apply in_map_iff in Hv. destruct Hv as (q & <- & Hq). apply (Bs q Hq).
        - intros Hf v Hv. apply in_map_iff in Hv. destruct Hv as (q & <- & Hq). now apply (Bs q Hq). }
      assert (R3 : Forall2 (fun q r => qstill q (fst r) /\ fst (snd r) = false) l rs3).
      { clear - GL HG Sv El Sa Hdt Q3 B1 M2. revert rs3 M2. induction B1 as [|q q' l l' Hq B1 IH]; intros rs3 M2; cbn [mapM] in M2.
        - apply Ok_inj in M2. subst rs3. constructor.
        - apply bind_Ok in M2. destruct M2 as ([q2 fl] & E1 & M2). apply bind_Ok in M2. destruct M2 as (rs' & E2 & M2). apply Ok_inj in M2. subst rs3. constructor; [|auto].
          cbn [fst snd]. destruct Hq as (A & B & C & D & E & F). destruct (def_rest _ _ _ _ _ _ Hdt Q3 A B C E1) as ((A' & B' & C' & D' & E' & F') & Z). split; [|exact Z].
          unfold qstill. rewrite D', E', F'. auto 10. }
      destruct (Fin rs3 R3) as (X2 & X3). rewrite M3, M4, M5, X1, X3, !orb_false_r. auto.
    - destruct Hr as (M3 & M4 & M5). rewrite M3, M4, M5, X1, orb_false_r. split; [apply Fin, R1|auto].
  Qed.
End RestStep.

(** ** The grid of an undisturbed body, and progress *)
Section RestRun.
  Context {G : Geo R} {GL : GeoLaws G}.
  Variable HG : two_or_three G.
  Variables (svd : TM -> TM * TV * TM) (uabs : R -> R) (p : Par R).

  Hypothesis Hdx : 0 < dx p.
  Lemma shift_0 : shift_factor p 0 = Ok 0%Z.
  Proof using Hdx.
    unfold shift_factor. rewrite cmax_R, nofZ_R. numR. replace (0 / dx p) with 0 by (unfold Rdiv; ring).
    rewrite Rmax_left by nra. replace 0 with (IZR 0) by reflexivity. rewrite Zfloor_IZR. apply to_uint_IZR. lia.
  Qed.
  Lemma cont_same : forall af xs am, ~ vget (grid_ref p) 0 < 10000000000 -> remeshFixedInit af p 2 xs = Ok am -> remeshFixedCont af p xs (map snd am) = Ok (map fst am).
  Proof using Hdx.
    intros af xs am Nr H. unfold remeshFixedInit in H. unfold remeshFixedCont. revert am H. generalize 0%nat. induction dim as [|d IH]; intros k am H; cbn [seq mapM] in H.
    - apply Ok_inj in H. now subst am.
    - apply bind_Ok in H. destruct H as ([a m] & E & H). apply bind_Ok in H. destruct H as (am' & E' & H). apply Ok_inj in H. subst am. cbn [map seq combine mapM fst snd].
      rewrite (IH _ _ E'). unfold remeshCont_axis, remeshInit_axis in *. apply bind_Ok in E. destruct E as (mx & E1 & E). apply bind_Ok in E. destruct E as (mn & E2 & E).
      rewrite E1, E2. cbn [bind]. unfold ref_adjust in E. rewrite nofZ_R in E. numR. destruct (Rltb_spec (vget (grid_ref p) 0) 10000000000); [contradiction|]. cbv zeta in E.
      apply bind_Ok in E. destruct E as (ax & E3 & E). apply Ok_inj, pair_equal_spec in E. destruct E as (<- & <-).
      unfold cont_high, cont_low. cbn [ma_max ma_min ma_high ma_low]. numR. destruct (Rltb_spec mx mx); [lra|]. destruct (Rltb_spec mn mn); [lra|]. rewrite !Rminus_eq_0, shift_0. cbn [bind].
      rewrite !nofZ_R. numR. rewrite nofZ_R in E3. numR. replace (mn - dx p * 2 - 0 * dx p) with (mn - dx p * 2) by ring. replace (mx + dx p * 2 + 0 * dx p + dx p) with (mx + dx p * 2 + dx p) by ring.
      rewrite E3. reflexivity.
  Qed.

  Hypothesis Sv : svd_ok svd.
  Hypothesis El : elastic p.
  Hypothesis Sa : sane p.
  Hypothesis Hm : 0 < min_dt p.
  Hypothesis Ob : obstacles_defined p.
  Hypothesis Ma : material_defined svd uabs p.
  Variables (n : nat) (xs : list TV) (es : list (R * R)).
  Hypothesis Hn : (0 < n)%nat.
  Hypothesis St : stay p xs.

  Definition undisturbed (s : Types.St R) : Prop :=
    well_formed s n /\ resting p xs es (s_p s) /\ calm s /\ s_exit s = false /\ Forall (fun nd => nd_v nd = vzero) (s_nodes s).
  Lemma undisturbed_step : forall af sc s s1, valid_sched sc -> undisturbed s -> advanceStep svd uabs af p sc s = Ok s1 -> undisturbed s1.
  Proof using GL HG Sv El Sa Hm St.
    intros af sc s s1 V (W & Re & Ca & Ex & _) H. destruct (rest_step HG svd uabs p Sv El Sa Hm af sc s s1 n xs es V W St Re Ca H) as (A & B & C & D).
    split; [apply (C51_step_keeps_arrays G svd uabs af p sc s s1 n V W H)|]. split; [exact A|]. split; [exact B|]. split; [congruence|]. eapply Forall_impl; [|exact D]. intros nd (Q & _). exact Q.
  Qed.
  Lemma undisturbed_tick : forall s, undisturbed s -> undisturbed (tick p s).
  Proof using.
    intros s (W & Re & Ca & Ex & Nd). split; [now apply wf_tick|]. unfold tick. cbv zeta. destruct (_ <? _)%num; auto.
  Qed.
  Lemma undisturbed_start : forall s, undisturbed s -> undisturbed (sim_start p s).
  Proof using.
    intros s (W & Re & (Ca1 & Ca2 & Ca3) & Ex & Nd). split; [now apply wf_start|]. split; [|split; [split; auto|auto]].
    unfold sim_start. cbn [s_p]. unfold fill_muI. destruct (use_mibf p); [|exact Re]. destruct Re as [A B C D E F H]. constructor; cbn [p_x p_v p_B p_F p_tau p_hist]; auto.
    - rewrite Forall_map. eapply Forall_impl; [|exact F]. intros h (X & Y). split; [exact X|exact Y].
    - rewrite map_map. exact H.
  Qed.

  (** Progress, for any additional invariant [good] under which steps succeed. *)
  Section Progress.
    Variable af : nat.
    Variable good : Types.St R -> Prop.
    Hypothesis Prog : forall sc s, valid_sched sc -> undisturbed s -> good s -> exists s1, advanceStep svd uabs af p sc s = Ok s1 /\ good (tick p s1).
    Lemma loop_progress : forall sch, (forall k, valid_sched (sch k)) -> forall fuel k s, undisturbed s -> good s ->
      sim_loop svd uabs fuel af p sch k s = NoFuel \/ exists s' ev, sim_loop svd uabs fuel af p sch k s = Ok (Finished, s', ev).
    Proof using GL HG Sv El Sa Hm Hn St Prog.
      intros sch V. induction fuel as [|fuel IH]; intros k s Us La; cbn [sim_loop]; destruct (s_frame s <? end_frame p)%Z; eauto.
      destruct (Prog (sch k) s (V k) Us La) as (s1 & E & Mm). rewrite E. cbn [bind]. pose proof (undisturbed_step _ _ _ _ (V k) Us E) as U1. rewrite (proj1 (proj2 (proj2 (proj2 U1)))).
      cbv zeta. destruct (at_end p (tick p s1)); [right; eauto|]. destruct (IH (S k) (tick p s1) (undisturbed_tick _ U1) Mm) as [->|(s' & ev & ->)]; cbn [bind]; eauto.
    Qed.
    Lemma run_progress : forall sc, valid_sched sc -> forall m s, undisturbed s -> good s ->
      exists l s', length l = m /\ run svd uabs af p s l s' /\ undisturbed s' /\ good s'.
    Proof using GL HG Sv El Sa Hm Hn St Prog.
      intros sc V. induction m as [|m IH]; intros s Us La. { exists [], s. repeat split; auto; try constructor; apply Us. }
      destruct (Prog sc s V Us La) as (s1 & E & Mm). pose proof (undisturbed_step _ _ _ _ V Us E) as U1.
      destruct (IH (tick p s1) (undisturbed_tick _ U1) Mm) as (l & s' & L & Rn & U' & La').
      exists ((s_dt s1, s_time s) :: l), s'. split; [cbn; lia|]. split; [econstructor; eauto|]. auto.
    Qed.
  End Progress.

  Hypothesis Pb : use_pbc p = false.
  Variables (af : nat) (am : list (Axis R * MeshAx R)).
  Hypothesis Ei : remeshFixedInit af p 2 xs = Ok am.
  Hypothesis Nr : ~ vget (grid_ref p) 0 < 10000000000.
  Hypothesis GO : GridOk p (map fst am).
  Hypothesis IG : forall x, In x xs -> in_grid p (map fst am) x.
  Definition laid (s : Types.St R) : Prop := s_step s <> 0%Z -> s_mesh s = map snd am.
  Lemma rest_progress : forall sc s, valid_sched sc -> undisturbed s -> laid s -> exists s1, advanceStep svd uabs af p sc s = Ok s1 /\ s_mesh s1 = map snd am /\ s_axes s1 = map fst am.
  Proof using GL HG Hdx Sv El Sa Hm Ob Ma Pb Hn Ei Nr GO IG.
    intros sc s V (W & Re & Ca & Ex & Nd) La. destruct (wf_pack s n W) as (l & L & E0 & N0 & F0).
    assert (Us : exists s', updateDt p s = Ok s' /\ s_step s' = s_step s /\ s_p s' = s_p s /\ s_mesh s' = s_mesh s).
    { unfold updateDt. destruct (p_v (s_p s)) as [|v vs] eqn:Ev; [rewrite E0 in Ev; destruct l; [cbn in L; lia|discriminate]|]. unfold max_speed. cbn [bind]. eexists. split; [reflexivity|]. repeat split; reflexivity. }
    destruct Us as (s' & U & Us & Up & Um).
    assert (Rm : remesh af p s' = Ok (with_grid s' (map fst am) (map snd am))).
    { unfold remesh. rewrite Pb, Us, Up, Um, (re_x _ _ _ _ Re). destruct (Z.eqb_spec (s_step s) 0); [now rewrite Ei|]. rewrite (La n0), (cont_same af xs am Nr Ei). reflexivity. }
    destruct (step_safe svd uabs af p sc s n s' (with_grid s' (map fst am) (map snd am)) Hdx V W Ob Ma) as (s1 & E1); auto; try congruence.
    { intros x Hx. rewrite (re_x _ _ _ _ Re) in Hx. now apply IG. }
    exists s1. split; [exact E1|]. destruct (step_run svd uabs af p sc s s1 l V E0 N0 F0 E1) as [[axes ms g1 g2 rs (sx & Er & Ax & Mx) Rd _ _ _ _ Sx Sm _ _]].
    rewrite Rd in U. apply Ok_inj in U. subst s'. rewrite Rm in Er. apply Ok_inj in Er. subst sx. cbn [with_grid s_axes s_mesh] in Ax, Mx. now rewrite Sx, Sm, Ax, Mx.
  Qed.
  Lemma laid_progress : forall sc s, valid_sched sc -> undisturbed s -> laid s -> exists s1, advanceStep svd uabs af p sc s = Ok s1 /\ laid (tick p s1).
  Proof using GL HG Hdx Sv El Sa Hm Ob Ma Pb Hn Ei Nr GO IG.
    intros sc s V Us La. destruct (rest_progress sc s V Us La) as (s1 & E & Mm & _). exists s1. split; [exact E|]. intros _. unfold tick. cbv zeta. destruct (_ <? _)%num; exact Mm.
  Qed.
End RestRun.
