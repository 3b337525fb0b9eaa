(** * StepField: whole time steps: momentum balance, affine fields, the velocity blend, array sizes. *)
From Coq Require Import Reals ZArith Lra Lia List Bool Permutation.
From Flocq Require Import Core.Raux.
From Verif Require Import Num NumR Tools Lin Types Remesh Objects Transfer Rma Plastic Pbc Step Spec SpecStep LinProofs ResProofs
  KernelProofs GridProofs StencilProofs IndexProofs GradProofs AccumProofs P2GProofs ConsProofs MuslProofs RemeshProofs PloopProofs PbcProofs SpecMech StepProofs StepMech.
Import ListNotations.
Local Open Scope R_scope.

Lemma F2_in : forall X Y (Q : X -> Y -> Prop) l l', Forall2 Q l l' -> forall x, In x l -> exists y, In y l' /\ Q x y.
Proof. intros X Y Q l l' H. induction H; intros z Hz; [destruct Hz|]; destruct Hz as [<-|Hz]; [eexists; split; [now left|eauto]|]. destruct (IHForall2 z Hz) as (? & ? & ?). eexists; split; [right|]; eauto. Qed.
Lemma F2_in_r : forall X Y (Q : X -> Y -> Prop) l l', Forall2 Q l l' -> forall y, In y l' -> exists x, In x l /\ Q x y.
Proof. intros X Y Q l l' H. induction H; intros z Hz; [destruct Hz|]; destruct Hz as [<-|Hz]; [eexists; split; [now left|eauto]|]. destruct (IHForall2 z Hz) as (? & ? & ?). eexists; split; [right|]; eauto. Qed.
Lemma F2_map : forall X Y Z W (Q : Z -> W -> Prop) (f : X -> Z) (g : Y -> W) l l', Forall2 Q (map f l) (map g l') <-> Forall2 (fun x y => Q (f x) (g y)) l l'.
Proof.
  intros X Y Z W Q f g l. induction l as [|x l IH]; intros [|y l']; cbn; split; intros H; inversion H; subst; constructor; auto; now apply IH.
Qed.
Lemma F2_map_l : forall X Y Z (Q : Z -> Y -> Prop) (f : X -> Z) l l', Forall2 Q (map f l) l' <-> Forall2 (fun x y => Q (f x) y) l l'.
Proof. intros. rewrite <- (map_id l') at 1. apply F2_map. Qed.
Lemma F2_map_r : forall X Y Z (Q : X -> Z -> Prop) (f : Y -> Z) l l', Forall2 Q l (map f l') <-> Forall2 (fun x y => Q x (f y)) l l'.
Proof. intros. rewrite <- (map_id l) at 1. apply F2_map. Qed.
Lemma F2_impl : forall X Y (Q Q' : X -> Y -> Prop) l l', (forall x y, In x l -> Q x y -> Q' x y) -> Forall2 Q l l' -> Forall2 Q' l l'.
Proof. intros X Y Q Q' l l' H F. induction F; constructor; auto. - apply H; auto. now left. - apply IHF. intros; apply H; auto. now right. Qed.
Lemma F2_same : forall X (Q : X -> X -> Prop) l, (forall x, In x l -> Q x x) -> Forall2 Q l l.
Proof. intros X Q l. induction l; intros H; constructor; [apply H; now left|apply IHl; intros; apply H; now right]. Qed.
Lemma F2_trans : forall X Y Z (Q : X -> Y -> Prop) (Q' : Y -> Z -> Prop) (T : X -> Z -> Prop) l l' l'', (forall x y z, In x l -> Q x y -> Q' y z -> T x z) ->
  Forall2 Q l l' -> Forall2 Q' l' l'' -> Forall2 T l l''.
Proof.
  intros X Y Z Q Q' T l l' l'' H F. revert l'' H. induction F; intros l'' HT F'; inversion F'; subst; constructor; [eapply HT; eauto; now left|].
  apply IHF; auto. intros; eapply HT; eauto. now right.
Qed.

Lemma F2_map_eq : forall X Y Z (f : X -> Z) (g : Y -> Z) (Q : X -> Y -> Prop) l l', (forall x y, Q x y -> f x = g y) -> Forall2 Q l l' -> map f l = map g l'.
Proof. intros X Y Z f g Q l l' H F. induction F; cbn; auto. rewrite (H x y), IHF by auto. reflexivity. Qed.

Section StepF.
  Context {G : Geo R} {GL : GeoLaws G}.
  Variable svd : TM -> TM * TV * TM.
  Variable uabs : R -> R.

  Lemma p2g_len : forall p axes P sched nodes g, p2g p axes P sched nodes = Ok g -> length g = length nodes.
  Proof.
    intros p axes P sched nodes g H. unfold p2g in H. rewrite (accumulate_total p) in H. unfold total in H. invb.
    rewrite map_length. eapply (adds_length _ _ _ (nval p) (nkeep p) (node_add p) zero_node (node_add_laws p)); eauto.
  Qed.

  Lemma strain_kin : forall p dt vg q r, strain_particle (plast svd uabs) p dt vg q = Ok r ->
    q_x (fst r) = q_x q /\ q_v (fst r) = q_v q /\ q_pic (fst r) = q_pic q /\ q_flip (fst r) = q_flip q /\ q_B (fst r) = q_B q.
  Proof. intros p dt vg q r H. unfold strain_particle in H. invb. cbn. auto. Qed.

  Section R.
    Variables (af : nat) (p : Par R) (sc : Sched) (s0 s1 : St R) (l : list (P1 R)).
    Hypothesis V : valid_sched sc.
    Hypothesis Rn : Run svd uabs af p sc s0 s1 l.
    Hypothesis Hdx : 0 < dx p.
    Hypothesis GO : GridOk p (s_axes s1).
    Notation axes := (s_axes s1).
    Let g1 := ru_g1 _ _ _ _ _ _ _ _ Rn.
    Let g2 := ru_g2 _ _ _ _ _ _ _ _ Rn.
    Let rs := ru_rs _ _ _ _ _ _ _ _ Rn.

    Lemma r_g2p : Forall2 (fun q r => g2p_particle (plast svd uabs) p axes g2 (s_dt s1) q = Ok r) l rs.
    Proof. apply mapM_Ok. rewrite (ru_saxes _ _ _ _ _ _ _ _ Rn). apply (ru_g2p _ _ _ _ _ _ _ _ Rn). Qed.
    Lemma r_cov : forall q, In q l -> Covered p axes (q_x q).
    Proof.
      intros q Hq. destruct (F2_in _ _ _ _ _ r_g2p q Hq) as (r & _ & H). unfold g2p_particle in H. cbv zeta in H. invb.
      eapply stencil_g2p_covered; eauto.
    Qed.
    Lemma r_len : Z.of_nat (length g2) = prodlen axes.
    Proof.
      pose proof (p2g_len _ _ _ _ _ _ (ru_p2g _ _ _ _ _ _ _ _ Rn)) as L1.
      pose proof (resize_length p axes GO) as L0. rewrite (ru_saxes _ _ _ _ _ _ _ _ Rn) in L0, GO |- *. rewrite <- L1 in L0.
      destruct (euler_spec p (s_plates s0) (s_dt s1) (s_grav s1) _ _ _ _ GO (vs_euler sc V _) L0 (ru_euler _ _ _ _ _ _ _ _ Rn)) as (L2 & _).
      unfold g2. rewrite L2. exact L0.
    Qed.
    (** What G2P leaves in a particle. *)
    Record Kin (q : P1 R) (r : P1 R) : Prop := {
      ki_x : q_x r = q_x q; ki_v : q_v r = q_v q;
      ki_g : Gathered p axes g2 (q_x q) (q_pic r) (q_B r) (q_flip r) }.
    Lemma r_kin : forall q r, In q l -> g2p_particle (plast svd uabs) p axes g2 (s_dt s1) q = Ok r -> Kin q (fst r) /\
      (use_musl p = true -> q_F (fst r) = q_F q /\ q_tau (fst r) = q_tau q /\ q_h (fst r) = q_h q) /\
      (use_musl p = false -> exists vg, grad_val p axes g2 (q_x q) vg /\
        strain_particle (plast svd uabs) p (s_dt s1) vg (mkP1 (q_x q) (q_v q) (q_pic (fst r)) (q_flip (fst r)) (q_h q) (q_F q) (q_B (fst r)) (q_tau q)) = Ok r).
    Proof.
      intros q r Hq H.
      destruct (g2p_eq p Hdx axes g2 (q_x q) GO r_len (r_cov q Hq) (plast svd uabs) (s_dt s1) q eq_refl) as (pic & vg & B & fl & Ga & Gv & E).
      rewrite E in H. cbv zeta in H. destruct (use_musl p).
      - injection H as <-. cbn. split; [split; auto|]. split; [auto|discriminate].
      - destruct (strain_kin _ _ _ _ _ H) as (X1 & X2 & X3 & X4 & X5). cbn in X1, X2, X3, X4, X5.
        split; [split; congruence|]. split; [discriminate|]. intros _. exists vg. rewrite X3, X4, X5. auto.
    Qed.
    (** The particles at the end of the step. *)
    Record Fin (r : P1 R) (q1 : P1 R) : Prop := {
      fi_x : q_x q1 = pos_hack p (pbc_wrap p (vadd (q_x r) (lscale (s_dt s1) (q_pic r))));
      fi_v : q_v q1 = new_velocity p r; fi_pic : q_pic q1 = q_pic r; fi_flip : q_flip q1 = q_flip r; fi_B : q_B q1 = q_B r }.
    Lemma r_fin : exists l1, s_p s1 = pack l1 /\ Forall2 (fun r q1 => Fin (fst r) q1) rs l1.
    Proof.
      pose proof (ru_rest _ _ _ _ _ _ _ _ Rn) as H. destruct (use_musl p) eqn:Em.
      - destruct H as (g3 & rs3 & _ & Hd & _ & Ep & _). eexists; split; [exact Ep|]. fold rs in Hd. apply mapM_Ok in Hd.
        apply F2_map_r. apply F2_map_l in Hd. eapply F2_impl; [|exact Hd].
        intros r r3 _ Hr. unfold def_particle in Hr. invb. destruct (strain_kin _ _ _ _ _ Hr) as (X1 & X2 & X3 & X4 & X5). cbn in X1, X2, X3, X4, X5.
        unfold move_of. rewrite Em. split; cbn; congruence.
      - destruct H as (_ & Ep & _). eexists; split; [exact Ep|]. apply F2_map_r. apply F2_same. intros r _.
        unfold move_of. rewrite Em. split; reflexivity.
    Qed.

    Lemma newv : forall r k, (k < dim)%nat -> vget (new_velocity p r) k =
      if Rltb (flip_ratio p) (-1) then vget (q_pic r) k
      else Rabs (flip_ratio p) * (vget (q_v r) k + vget (q_flip r) k) + (1 - Rabs (flip_ratio p)) * vget (q_pic r) k.
    Proof.
      intros r k Hk. unfold new_velocity. cbv zeta. rewrite !nofZ_R. numR. destruct (Rltb_spec (flip_ratio p) (-1)); auto.
      destruct (Rltb_spec (flip_ratio p) 0); autorewrite with geo.
      - rewrite Rabs_left by lra. ring.
      - rewrite Rabs_pos_eq by lra. ring.
    Qed.

    (** FLIP increment of a node: the change of its velocity in the grid update. *)
    Lemma euler_flip : forall plates dt grav X nd nd', nd_flip nd = vzero -> euler_node p plates dt grav X nd = Ok nd' ->
      forall k, (k < dim)%nat -> vget (nd_flip nd') k = vget (nd_v nd') k - vget (nd_v nd) k.
    Proof.
      intros plates dt grav X nd nd' H0 H k Hk. unfold euler_node in H. cbv zeta in H. revert H. rewrite nofZ_R. numR. destruct (Rltb 0 (nd_m nd)); intros H.
      - destruct (boundaryCollision _ _ _ _ _ _) as [v| |]; cbn [bind] in H; try discriminate. injection H as <-. cbn [nd_flip nd_v]. autorewrite with geo. reflexivity.
      - injection H as <-. rewrite H0. autorewrite with geo. ring.
    Qed.
    Lemma p2g_flip0 : forall P sched g j nd, p2g p axes P sched (resizeGrid axes) = Ok g -> nth_error g j = Some nd -> nd_flip nd = vzero.
    Proof.
      intros P sched g j nd H Hj. unfold p2g in H. rewrite (accumulate_total p) in H. unfold total in H. invb.
      rewrite nth_error_map in Hj. destruct (nth_error x j) as [a|] eqn:Ea; [|discriminate]. cbn [option_map] in Hj. injection Hj as <-. unfold p2g_finish_node; cbn [nd_flip].
      apply (adds_Ok _ _ _ (nval p) (nkeep p) (node_add p) zero_node (node_add_laws p)) in E. destruct E as (_ & L & H).
      assert (Hl : (j < length (resizeGrid axes))%nat) by (rewrite <- L; apply nth_error_Some; congruence).
      destruct (H j zero_node) as (a' & Ea' & Hk & _).
      { unfold resizeGrid in *. rewrite repeat_length in Hl. rewrite (nth_error_nth' _ zero_node) by (rewrite repeat_length; auto). now rewrite nth_repeat. }
      rewrite Ea in Ea'. injection Ea' as <-. unfold nkeep in Hk. apply (f_equal fst) in Hk. exact Hk.
    Qed.
    Lemma blend_eq : forall fr v dv pic, (if Rltb fr (-1) then pic else Rabs fr * (v + dv) + (1 - Rabs fr) * pic) = blend fr v dv pic.
    Proof.
      intros. unfold blend. destruct (Rltb_spec fr (-1)), (Rlt_dec fr (-1)); try lra. destruct (Rlt_dec fr 0).
      - rewrite Rabs_left by lra. ring.
      - rewrite Rabs_pos_eq by lra. ring.
    Qed.
    Theorem blended : s_p s0 = pack l -> exists P before after,
      (use_pbc p = false -> P = s_p s0) /\
      p2g p axes P (sc_p2g sc (length (p_x P))) (resizeGrid axes) = Ok before /\
      euler p (s_plates s0) (s_dt s1) (s_grav s1) axes (sc_euler sc (Z.to_nat (grid_nodes axes))) before = Ok after /\
      forall i x v x1 v1, nth_error (p_x (s_p s0)) i = Some x -> nth_error (p_v (s_p s0)) i = Some v ->
        nth_error (p_x (s_p s1)) i = Some x1 -> nth_error (p_v (s_p s1)) i = Some v1 ->
        exists items, stencil base_g2p p axes x = Ok items /\
          (forall k, (k < dim)%nat -> vget v1 k = blend (flip_ratio p) (vget v k) (mean (fun it => node_v after it k - node_v before it k) items) (mean (fun it => node_v after it k) items)) /\
          (use_pbc p = false -> change_pos p = false -> forall k, (k < dim)%nat -> vget x1 k = vget x k + s_dt s1 * mean (fun it => node_v after it k) items) /\
          (use_pbc p = true -> change_pos p = false -> forall k, (k < dim)%nat -> let y := vget x k + s_dt s1 * mean (fun it => node_v after it k) items in
             vget x1 k = if Nat.eqb k 0 then if Rltb (Lx p) y then y - Lx p else if Rltb y 0 then Lx p + y else y else y).
    Proof.
      intros Hp0. exists (grid_particles p sc l), g1, g2.
      pose proof (ru_p2g _ _ _ _ _ _ _ _ Rn) as E1. pose proof (ru_euler _ _ _ _ _ _ _ _ Rn) as E2. fold g1 g2 in E1, E2. rewrite <- (ru_saxes _ _ _ _ _ _ _ _ Rn) in E1, E2.
      split; [intros Hpbc; unfold grid_particles; rewrite Hpbc; now symmetry|]. split; [exact E1|]. split; [exact E2|].
      destruct r_fin as (l1 & -> & Fi). rewrite Hp0. intros i x v x1 v1. unfold pack. cbn [p_x p_v]. rewrite !nth_error_map. intros Hx Hv Hx1 Hv1.
      destruct (nth_error l i) as [q|] eqn:Eq; [|discriminate]. destruct (nth_error l1 i) as [q1|] eqn:Eq1; [|discriminate]. cbn in Hx, Hv, Hx1, Hv1.
      injection Hx as <-. injection Hv as <-. injection Hx1 as <-. injection Hv1 as <-.
      destruct (Forall2_nth_error _ _ _ _ _ r_g2p i q Eq) as (r & Er & Hr). destruct (Forall2_nth_error _ _ _ _ _ Fi i r Er) as (q1' & Eq1' & Fq). rewrite Eq1 in Eq1'. injection Eq1' as <-.
      assert (Hq : In q l) by (eapply nth_error_In; eauto). destruct (r_kin q r Hq Hr) as (Ki & _).
      destruct (stencil_cov p Hdx axes (q_x q) GO (r_cov q Hq)) as (_ & Es & S). exists (items_of p axes (q_x q)). split; [exact Es|].
      assert (L1 : Z.of_nat (length g1) = prodlen axes) by (rewrite (p2g_len _ _ _ _ _ _ E1); now apply (resize_length p)).
      assert (NA : forall it, In it (items_of p axes (q_x q)) -> forall k, (k < dim)%nat -> node_v g2 it k = vget (nd_v (nd_at g2 it)) k /\
        node_v g2 it k - node_v g1 it k = vget (nd_flip (nd_at g2 it)) k).
      { intros it Hit k Hk. pose proof (sl_idx _ _ _ _ S it Hit) as Hi. unfold node_v. rewrite (rd_nd_at g2 it), (rd_nd_at g1 it) by (rewrite ?r_len, ?L1; auto).
        split; [reflexivity|]. destruct (euler_spec p _ _ _ _ _ _ _ GO (vs_euler sc V _) L1 E2) as (L2 & H).
        assert (En : nth_error g1 (Z.to_nat (it_idx it)) = Some (nd_at g1 it)) by (unfold nd_at; apply nth_error_nth'; lia).
        destruct (H _ _ En) as (nd' & He & Hn). symmetry. unfold nd_at at 1 2. rewrite (nth_error_nth _ _ zero_node Hn).
        apply (euler_flip _ _ _ _ _ _ (p2g_flip0 _ _ _ _ _ E1 En) He k Hk). }
      assert (Mp : forall k, (k < dim)%nat -> mean (fun it => node_v g2 it k) (items_of p axes (q_x q)) = vget (q_pic (fst r)) k).
      { intros k Hk. rewrite (ga_pic _ _ _ _ _ _ _ (ki_g _ _ Ki) k Hk). apply Rsum_ext. intros it Hit. now rewrite (proj1 (NA it Hit k Hk)). }
      split; [|split].
      - intros k Hk. rewrite (fi_v _ _ Fq), newv, (ki_v _ _ Ki), Mp, <- blend_eq by auto. destruct (Rltb_spec (flip_ratio p) (-1)) as [Hf|Hf]; [reflexivity|].
        rewrite (ga_fl _ _ _ _ _ _ _ (ki_g _ _ Ki) ltac:(lra) k Hk). do 3 f_equal. apply Rsum_ext. intros it Hit. now rewrite (proj2 (NA it Hit k Hk)).
      - intros Hb Hc k Hk. rewrite Mp by auto. rewrite (fi_x _ _ Fq). unfold pos_hack, pbc_wrap. rewrite Hb, Hc, (ki_x _ _ Ki). autorewrite with geo. reflexivity.
      - intros Hb Hc k Hk. cbv zeta. rewrite Mp by auto. rewrite (fi_x _ _ Fq). unfold pos_hack, pbc_wrap. rewrite Hb, Hc, (ki_x _ _ Ki).
        pose proof dim_pos as Dp. cbv zeta. rewrite ?nofZ_R. numR. rewrite !vget_add, !vget_lscale by auto. numR.
        destruct k as [|k]; cbn [Nat.eqb].
        + destruct (Rltb_spec (Lx p) (vget (q_x q) 0 + s_dt s1 * vget (q_pic (fst r)) 0)); [autorewrite with geo; reflexivity|].
          destruct (Rltb_spec (vget (q_x q) 0 + s_dt s1 * vget (q_pic (fst r)) 0) 0); autorewrite with geo; reflexivity.
        + destruct (Rltb_spec (Lx p) (vget (q_x q) 0 + s_dt s1 * vget (q_pic (fst r)) 0)); [autorewrite with geo; reflexivity|].
          destruct (Rltb_spec (vget (q_x q) 0 + s_dt s1 * vget (q_pic (fst r)) 0) 0); autorewrite with geo; reflexivity.
    Qed.
    Theorem wf_kept : forall n, well_formed s0 n -> length l = n -> well_formed s1 n.
    Proof.
      intros n (C & N & F) Hl. destruct r_fin as (l1 & E & Fi). pose proof (F2_length _ _ _ _ _ Fi) as L1. pose proof (F2_length _ _ _ _ _ r_g2p) as L0.
      split; [|split; [now rewrite (ru_Np _ _ _ _ _ _ _ _ Rn)|exact F]]. rewrite E. unfold pack. split; cbn; rewrite map_length; congruence.
    Qed.

    (** ** Without obstacles and periodic boundaries *)
    Hypothesis Hm : 0 < particle_mass p.
    Hypothesis Hpbc : use_pbc p = false.
    Hypothesis Ho : objects p = [].
    Hypothesis Hpl : s_plates s0 = [].
    Hypothesis Nt : forall q, In q l -> no_tiny_weights p axes (q_x q).
    Hypothesis Ol : spline p = Deg1 -> forall q, In q l -> off_lines p axes (q_x q).

    Lemma r_p2g : p2g p axes (pack l) (sc_p2g sc (length l)) (resizeGrid axes) = Ok g1.
    Proof.
      pose proof (ru_p2g _ _ _ _ _ _ _ _ Rn) as H. unfold grid_particles in H. rewrite Hpbc in H. unfold pack in H at 2. cbn [p_x] in H.
      rewrite map_length, <- (ru_saxes _ _ _ _ _ _ _ _ Rn) in H. exact H.
    Qed.
    Lemma r_euler : euler p [] (s_dt s1) (s_grav s1) axes (sc_euler sc (Z.to_nat (grid_nodes axes))) g1 = Ok g2.
    Proof. pose proof (ru_euler _ _ _ _ _ _ _ _ Rn) as H. rewrite Hpl, <- (ru_saxes _ _ _ _ _ _ _ _ Rn) in H. exact H. Qed.

    Lemma F2_Rsum : forall X Y (f : X -> R) (g : Y -> R) (Q : X -> Y -> Prop) a b, (forall x y, Q x y -> f x = g y) -> Forall2 Q a b -> Rsum f a = Rsum g b.
    Proof. intros X Y f g Q a b H F. induction F; cbn; auto. rewrite (H x y) by auto. lra. Qed.

    Lemma r_kins : Forall2 (fun q r => Kin q (fst r)) l rs.
    Proof. eapply F2_impl; [|exact r_g2p]. intros q r Hq H. apply (proj1 (r_kin q r Hq H)). Qed.

    Hypothesis Hp0 : s_p s0 = pack l.
    Theorem momentum : forall k, (k < dim)%nat ->
      Rsum (fun v => vget v k) (p_v (s_p s1)) = Rsum (fun v => vget v k) (p_v (s_p s0)) + INR (length l) * (s_dt s1 * vget (s_grav s1) k).
    Proof.
      intros k Hk. destruct r_fin as (l1 & -> & F). rewrite Hp0. unfold pack. cbn [p_v]. rewrite !Rsum_map.
      pose proof (pic_total p Hdx Hm axes GO l r_cov Nt _ (vs_p2g sc V _) g1 r_p2g Ho (s_dt s1) (s_grav s1) _ g2 (vs_euler sc V _) r_euler Ol k Hk) as Tp.
      pose proof (flip_total p Hdx Hm axes GO l r_cov Nt _ (vs_p2g sc V _) g1 r_p2g Ho (s_dt s1) (s_grav s1) _ g2 (vs_euler sc V _) r_euler Ol k Hk) as Tf.
      set (pic := fun q : P1 R => Rsum (fun it => it_w it * Vn g2 (Z.to_nat (it_idx it)) k) (items_of p axes (q_x q))) in *.
      set (fl := fun q : P1 R => Rsum (fun it => it_w it * Dn g2 (Z.to_nat (it_idx it)) k) (items_of p axes (q_x q))) in *.
      pose (nv := fun q => if Rltb (flip_ratio p) (-1) then pic q else Rabs (flip_ratio p) * (vget (q_v q) k + fl q) + (1 - Rabs (flip_ratio p)) * pic q).
      transitivity (Rsum nv l).
      - symmetry. apply (F2_Rsum _ _ nv (fun q1 => vget (q_v q1) k) (fun q q1 => nv q = vget (q_v q1) k)); [auto|].
        refine (F2_trans _ _ _ _ _ _ _ _ _ _ r_kins F). intros q r q1 _ Ki Fi. cbv beta in Ki, Fi |- *.
        rewrite (fi_v _ _ Fi), newv by auto. rewrite (ki_v _ _ Ki). unfold nv.
        rewrite (ga_pic _ _ _ _ _ _ _ (ki_g _ _ Ki) k Hk). destruct (Rltb_spec (flip_ratio p) (-1)) as [H|H]; [reflexivity|].
        rewrite (ga_fl _ _ _ _ _ _ _ (ki_g _ _ Ki) ltac:(lra) k Hk). reflexivity.
      - unfold nv. destruct (Rltb (flip_ratio p) (-1)); [exact Tp|].
        rewrite Rsum_plus, !Rsum_scal, Rsum_plus, Tf, Tp. lra.
    Qed.

    (** ** Affine fields *)
    Section Field.
      Variables (c : TV) (A : TM).
      Hypothesis Ca : forall q, In q l -> carries p c A q.
      Hypothesis Sf : forall q, In q l -> q_tau q = mzero.
      Notation dt := (s_dt s1).
      Notation g := (s_grav s1).
      Let c' : TV := vadd c (vscale g dt).
      Lemma fld' : forall k X, (k < dim)%nat -> fld c' A k X = fld c A k X + dt * vget g k.
      Proof. intros. unfold fld, c'. autorewrite with geo. ring. Qed.
      Lemma Fj0 : forall j k, (k < dim)%nat -> Fj p axes l j k = 0.
      Proof.
        intros j k Hk. unfold Fj. apply Rsum_zero. intros q Hq. apply Rsum_zero. intros it _. rewrite (Sf q Hq), vget_mvec by auto.
        rewrite sumd_zero; [lra|]. intros; autorewrite with geo; lra.
      Qed.
      Lemma nodes_field : forall k, (k < dim)%nat -> agrees p axes l g2 c' A (fun j => Vn g2 j k) k /\ forall j, (j < length g2)%nat -> 0 < Mj p axes l j -> Dn g2 j k = dt * vget g k.
      Proof.
        intros k Hk.
        assert (N : forall j, (j < length g2)%nat -> 0 < Mj p axes l j -> Vn g2 j k = fld c' A k (node_pos p axes j) /\ Dn g2 j k = dt * vget g k).
        { intros j Hj H0.
          destruct (node2 p Hdx Hm axes GO l r_cov Nt _ (vs_p2g sc V _) g1 r_p2g Ho dt g _ g2 (vs_euler sc V _) r_euler) as (_ & N).
          destruct (N j k Hj Hk) as (_ & N1 & _). destruct (N1 H0) as (-> & ->). unfold incr. rewrite Fj0 by auto.
          rewrite (project_field p Hdx axes GO l r_cov c A k j Hk Ca H0), fld' by auto. unfold Rdiv. lra. }
        split; [intros j Hj H0; apply N; auto|intros; now apply N].
      Qed.
      Lemma nodes_flip : forall k q, (k < dim)%nat -> In q l -> Rsum (fun it => it_w it * Dn g2 (Z.to_nat (it_idx it)) k) (items_of p axes (q_x q)) = dt * vget g k.
      Proof.
        intros k q Hk Hq. assert (SLq : SL p axes (q_x q) (items_of p axes (q_x q))) by (apply (sl p Hdx axes GO l r_cov q Hq)).
        rewrite (Rsum_ext _ (fun it => (dt * vget g k) * it_w it)).
        - rewrite Rsum_scal. assert (S1 : Rsum it_w (items_of p axes (q_x q)) = 1) by exact (sl_1 _ _ _ _ SLq). rewrite S1. ring.
        - intros it Hit. pose proof (sl_w _ _ _ _ SLq it Hit). destruct (Req_dec (it_w it) 0) as [->|]; [lra|].
          rewrite (proj2 (nodes_field k Hk)); [ring| |].
          + pose proof (sl_idx _ _ _ _ SLq it Hit) as Hi. rewrite <- r_len in Hi. lia.
          + pose proof (Mj_ge p Hdx axes GO l r_cov q it Hq Hit). lra.
      Qed.

      Lemma apicD_nz : spline p <> Deg1 -> apicDinverse p <> 0.
      Proof.
        intros H. assert (0 < dx p * dx p) by nra. unfold apicDinverse. rewrite !nofZ_R. numR. destruct (spline p); [congruence| |];
        apply Rgt_not_eq, Rdiv_lt_0_compat; lra.
      Qed.
      Lemma Smq : forall q, In q l -> spline p <> Deg1 \/ forall i j, (i < dim)%nat -> (j < dim)%nat -> mget A i j = 0.
      Proof.
        intros q Hq. destruct (spline p) eqn:Es; [right|left; discriminate|left; discriminate]. intros i j Hi Hj.
        destruct (Rlt_le_dec (flip_ratio p) 0) as [H|H]; [|now apply (ca_0 _ _ _ _ (Ca q Hq))].
        rewrite <- (ca_B _ _ _ _ (Ca q Hq) H i j Hi Hj). unfold apicDinverse. rewrite Es, nofZ_R. numR. ring.
      Qed.
      Section One.
        Variables (q r : P1 R).
        Hypothesis Hq : In q l.
        Hypothesis Ki : Kin q r.
        Lemma f_pic : forall k, (k < dim)%nat -> vget (q_pic r) k = vget (q_v q) k + dt * vget g k.
        Proof.
          intros k Hk. rewrite (ga_pic _ _ _ _ _ _ _ (ki_g _ _ Ki) k Hk).
          pose proof (gather_v p Hdx Hm axes GO l r_cov Nt _ (vs_p2g sc V _) g1 r_p2g Ho dt g _ g2 (vs_euler sc V _) r_euler c' A (fun j => Vn g2 j k) k q Hk (proj1 (nodes_field k Hk)) Hq) as E.
          transitivity (fld c' A k (q_x q)); [exact E|]. rewrite fld' by auto. now rewrite (ca_v _ _ _ _ (Ca q Hq) k Hk).
        Qed.
        Lemma f_v : new_velocity p r = vadd (q_v q) (vscale g dt).
        Proof.
          apply vext. intros k Hk. rewrite newv by auto. rewrite (f_pic k Hk), (ki_v _ _ Ki). autorewrite with geo.
          destruct (Rltb_spec (flip_ratio p) (-1)) as [H|H]; [ring|]. rewrite (ga_fl _ _ _ _ _ _ _ (ki_g _ _ Ki) ltac:(lra) k Hk).
          change (Rsum _ _) with (Rsum (fun it => it_w it * Dn g2 (Z.to_nat (it_idx it)) k) (items_of p axes (q_x q))). rewrite nodes_flip by auto. ring.
        Qed.
        Lemma f_B : flip_ratio p < 0 -> forall i j, (i < dim)%nat -> (j < dim)%nat -> mget (q_B r) i j = mget A i j * / apicDinverse p.
        Proof.
          intros Hf i j Hi Hj. rewrite (ga_B _ _ _ _ _ _ _ (ki_g _ _ Ki) Hf i j Hi Hj).
          apply (gather_B p Hdx Hm axes GO l r_cov Nt _ (vs_p2g sc V _) g1 r_p2g Ho dt g _ g2 (vs_euler sc V _) r_euler c' A (fun m => Vn g2 m i) i q Hi (proj1 (nodes_field i Hi)) Hq j Hj).
          destruct (Smq q Hq); auto.
        Qed.
        Lemma f_carries : carries p c' A (blend_of p r).
        Proof.
          unfold blend_of, set_v. split; cbn [q_v q_x q_B].
          - intros k Hk. rewrite f_v, (ki_x _ _ Ki), fld' by auto. autorewrite with geo. rewrite (ca_v _ _ _ _ (Ca q Hq) k Hk). ring.
          - intros Hf i j Hi Hj. rewrite f_B by auto. destruct (Smq q Hq) as [HS|HS]; [field; now apply apicD_nz|]. rewrite HS by auto. ring.
          - exact (ca_0 _ _ _ _ (Ca q Hq)).
        Qed.
        Lemma f_grad : forall nodes vg, (forall k, (k < dim)%nat -> agrees p axes l g2 c' A (fun j => vget (nd_v (nth j nodes zero_node)) k) k) ->
          grad_val p axes nodes (q_x q) vg -> vg = A.
        Proof.
          intros nodes vg Ag Gv. apply mext. intros i j Hi Hj. rewrite (Gv i j Hi Hj).
          exact (gather_g p Hdx Hm axes GO l r_cov Nt _ (vs_p2g sc V _) g1 r_p2g Ho dt g _ g2 (vs_euler sc V _) r_euler Ol c' A (fun m => vget (nd_v (nth m nodes zero_node)) i) i q Hi (Ag i Hi) Hq j Hj).
        Qed.
      End One.

      (** The re-projected grid of MUSL carries the same field. *)
      Lemma musl_field : forall sched g3, thread_schedule sched (length l) -> musl_grid p axes (pack (map (fun r => blend_of p (fst r)) rs)) sched g2 = Ok g3 ->
        length g3 = length g2 /\ forall k, (k < dim)%nat -> agrees p axes l g2 c' A (fun j => vget (nd_v (nth j g3 zero_node)) k) k.
      Proof.
        intros sched g3 Sc E. set (lb := map (fun r => blend_of p (fst r)) rs) in *.
        assert (Lb : length lb = length l) by (unfold lb; rewrite map_length; symmetry; exact (F2_length _ _ _ _ _ r_kins)).
        assert (FK : Forall2 (fun q b => q_x b = q_x q /\ carries p c' A b) l lb).
        { unfold lb. apply F2_map_r. eapply F2_impl; [|exact r_kins]. intros q r Hq Ki. cbv beta in Ki |- *. split; [exact (ki_x _ _ Ki)|]. now apply (f_carries q). }
        assert (Ex : map q_x lb = map q_x l).
        { symmetry. apply (F2_map_eq _ _ _ q_x q_x (fun q b => q_x b = q_x q /\ carries p c' A b)); auto. intros a b0 (H1 & _). now symmetry. }
        destruct (musl_run p Hdx axes (pack lb) (length l) sched g2 GO) as (ds & g3' & Ld & Dx & Dv & DB & _ & E' & L3 & N); try (unfold pack; cbn [p_x p_v p_B]; rewrite map_length; exact Lb).
        { intros _. unfold pack; cbn [p_B]. rewrite map_length; exact Lb. }
        { intros x Hx. unfold pack in Hx; cbn [p_x] in Hx. rewrite Ex in Hx. apply in_map_iff in Hx. destruct Hx as (q & <- & Hq). apply in_grid_covered; auto. now apply r_cov. }
        { exact Sc. }
        { apply r_len. }
        rewrite E in E'. injection E' as <-. split; [exact L3|]. intros k Hk j Hj H0.
        destruct (nth_error g2 j) as [nd|] eqn:En; [|apply nth_error_None in En; lia].
        destruct (N j nd En) as (nd' & En' & _ & _ & _ & _ & Nv & _). rewrite (nth_error_nth _ _ zero_node En').
        destruct (node2 p Hdx Hm axes GO l r_cov Nt _ (vs_p2g sc V _) g1 r_p2g Ho dt g _ g2 (vs_euler sc V _) r_euler) as (_ & N2).
        destruct (N2 j k Hj Hk) as (Nm & _). rewrite (nth_error_nth _ _ zero_node En) in Nm. rewrite Nm in Nv.
        rewrite Nv by (auto; nra). replace (Mj p axes l j * particle_mass p / particle_mass p) with (Mj p axes l j) by (field; lra).
        match goal with |- ?S / _ = _ => assert (ES : S = fld c' A k (node_pos p axes j) * Mj p axes l j) end; [|rewrite ES; field; lra].
        transitivity (fld c' A k (node_pos p axes j) * Rsum (fun x => Rsum (fun it => ind j it * it_w it) (items_of p axes x)) (map d_x ds)).
        2:{ f_equal. rewrite Dx. unfold pack; cbn [p_x]. rewrite Ex, Rsum_map. reflexivity. }
        rewrite Rsum_map, <- Rsum_scal. apply Rsum_nth_ext. intros i d Hd.
        assert (Xd : nth_error (map q_x lb) i = Some (d_x d)) by (change (map q_x lb) with (p_x (pack lb)); rewrite <- Dx; now apply map_nth_error).
        rewrite nth_error_map in Xd. destruct (nth_error lb i) as [b|] eqn:Eb; [|discriminate]. cbn in Xd. injection Xd as Xd.
        assert (Vd : d_v d = q_v b).
        { assert (Q : nth_error (map d_v ds) i = Some (d_v d)) by (now apply map_nth_error). rewrite Dv in Q. unfold pack in Q; cbn [p_v] in Q. rewrite nth_error_map, Eb in Q. cbn in Q. congruence. }
        assert (Bd : flip_ratio p < 0 -> d_B d = q_B b).
        { intros Hf. assert (Q : nth_error (map d_B ds) i = Some (d_B d)) by (now apply map_nth_error). rewrite (DB Hf) in Q. unfold pack in Q; cbn [p_B] in Q. rewrite nth_error_map, Eb in Q. cbn in Q. congruence. }
        destruct (F2_in_r _ _ _ _ _ FK b (nth_error_In _ _ Eb)) as (q & Eq & Xq & Cb).
        rewrite <- Rsum_scal. apply Rsum_ext. intros it Hit. rewrite <- Xd, Xq in Hit.
        assert (Af : vget (d_v d) k + affine p d it k = fld c' A k (it_x it)).
        { rewrite <- (carry_aff p c' A b it k Cb Hk). rewrite Vd. f_equal. unfold affine, pd. cbn [d_B d_x]. destruct (Rltb_spec (flip_ratio p) 0); auto. rewrite Bd, <- Xd by auto. reflexivity. }
        rewrite Af. rewrite (stencil_pos p Hdx axes (q_x q) it GO (r_cov q Eq) Hit).
        destruct (act_or p Hdx axes GO l r_cov Nt q it Eq Hit) as [Ha|(Ha & W & _)]; rewrite Ha.
        - destruct (ind_cases j it) as [(Ei & Ej)|(Ei & Ej)]; rewrite Ei.
          + rewrite (proj2 (Z.eqb_eq _ _) Ej), Ej, Nat2Z.id. ring.
          + rewrite (proj2 (Z.eqb_neq _ _) Ej). ring.
        - rewrite W. ring.
      Qed.

      Theorem field_step : exists l1, s_p s1 = pack l1 /\ Forall2 (fun q q1 =>
        q_v q1 = vadd (q_v q) (vscale g dt) /\
        (change_pos p = false -> q_x q1 = vadd (q_x q) (vscale (vadd (q_v q) (vscale g dt)) dt)) /\
        (flip_ratio p < 0 -> forall i j, (i < dim)%nat -> (j < dim)%nat -> mget (q_B q1) i j = mget A i j * / apicDinverse p) /\
        exists h h1 cnt ex pl, plasticity svd uabs p dt (F_trial dt A (q_F q)) mzero h = Ok pl /\ pl = mkPlOut (q_F q1) (q_tau q1) h1 cnt ex) l l1.
      Proof.
        assert (KV : forall q r, In q l -> Kin q r -> forall q1, Fin r q1 ->
          q_v q1 = vadd (q_v q) (vscale g dt) /\
          (change_pos p = false -> q_x q1 = vadd (q_x q) (vscale (vadd (q_v q) (vscale g dt)) dt)) /\
          (flip_ratio p < 0 -> forall i j, (i < dim)%nat -> (j < dim)%nat -> mget (q_B q1) i j = mget A i j * / apicDinverse p)).
        { intros q r Hq Ki q1 Fi. rewrite (fi_v _ _ Fi), (f_v q r Hq Ki), (fi_B _ _ Fi). split; [reflexivity|]. split; [|apply (f_B q r Hq Ki)].
          intros Hc. rewrite (fi_x _ _ Fi). unfold pos_hack, pbc_wrap. rewrite Hc, Hpbc, (ki_x _ _ Ki). apply vext. intros k Hk. autorewrite with geo.
          rewrite (f_pic q r Hq Ki k Hk). ring. }
        pose proof (ru_rest _ _ _ _ _ _ _ _ Rn) as H. destruct (use_musl p) eqn:Em.
        - destruct H as (g3 & rs3 & Hg & Hd & _ & Ep & _). eexists; split; [exact Ep|]. fold rs g2 in Hg, Hd. rewrite <- (ru_saxes _ _ _ _ _ _ _ _ Rn) in Hg, Hd.
          destruct (musl_field _ _ (vs_musl sc V _) Hg) as (L3 & Ag). apply mapM_Ok in Hd. apply F2_map_r. apply F2_map_l in Hd.
          refine (F2_trans _ _ _ _ _ _ _ _ _ _ r_g2p Hd). intros q r r3 Hq Hr Hd'. cbv beta in Hr, Hd' |- *.
          destruct (r_kin q r Hq Hr) as (Ki & Km & _). destruct (Km Em) as (KF & Kt & Kh).
          destruct (def_eq p Hdx axes g3 (q_x q) GO (eq_trans (f_equal Z.of_nat L3) r_len) (r_cov q Hq) (plast svd uabs) dt (blend_of p (fst r)) (ki_x _ _ Ki)) as (vg & Gv & E).
          rewrite E in Hd'. rewrite (f_grad q Hq g3 vg Ag Gv) in Hd'. destruct (strain_kin _ _ _ _ _ Hd') as (X1 & X2 & X3 & X4 & X5). cbn in X1, X2, X3, X4, X5.
          split; [|split]; [| |split].
          + unfold move_of. rewrite Em. cbn. rewrite X2. apply (f_v q (fst r) Hq Ki).
          + eapply KV; eauto. unfold move_of. rewrite Em. split; cbn; try congruence. rewrite X1, (ki_x _ _ Ki), X3. reflexivity.
          + unfold move_of. rewrite Em. cbn. rewrite X5. apply (f_B q (fst r) Hq Ki).
          + unfold strain_particle, plast in Hd'. cbn [q_F q_tau q_h blend_of set_v] in Hd'. rewrite KF, Kt, (Sf q Hq) in Hd'.
            destruct (plasticity _ _ _ _ _ _ _) as [pl| |] eqn:Epl; try discriminate. cbn [bind] in Hd'. injection Hd' as <-.
            exists (reset_dg (q_h (fst r))), (o_h pl), (o_count pl), (o_exit pl), pl. split; [exact Epl|]. unfold move_of. rewrite Em. destruct pl; reflexivity.
        - destruct H as (_ & Ep & _). eexists; split; [exact Ep|]. apply F2_map_r. eapply F2_impl; [|exact r_g2p]. intros q r Hq Hr. cbv beta in Hr |- *.
          destruct (r_kin q r Hq Hr) as (Ki & _ & Kn). destruct (Kn Em) as (vg & Gv & Es).
          rewrite (f_grad q Hq g2 vg (fun k Hk => proj1 (nodes_field k Hk)) Gv) in Es.
          assert (KVq := KV q (fst r) Hq Ki (move_of p dt (fst r))). rewrite <- and_assoc, <- and_assoc.
          split.
          + rewrite and_assoc. apply KVq. unfold move_of. rewrite Em. split; reflexivity.
          + unfold strain_particle, plast in Es. cbn [q_F q_tau q_h] in Es. rewrite (Sf q Hq) in Es.
            destruct (plasticity _ _ _ _ _ _ _) as [pl| |] eqn:Epl; try discriminate. cbn [bind] in Es.
            exists (q_h q), (o_h pl), (o_count pl), (o_exit pl), pl. split; [exact Epl|]. unfold move_of. rewrite Em.
            apply (f_equal (fun o => match o with Ok r => Some (fst r) | _ => None end)) in Es. injection Es as Es. rewrite <- Es. destruct pl; reflexivity.
      Qed.
    End Field.
  End R.
End StepF.
