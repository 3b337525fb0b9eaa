(** * FuelProofs: no modelled loop runs out of fuel, i.e. every while loop of a simulation ends. *)
From Coq Require Import Reals ZArith Lra Lia List Bool.
From Verif Require Import Num NumR Tools Lin Types Remesh Objects Transfer Rma Plastic Pbc Step SpecObj SpecStep SpecTime Spec LinProofs ResProofs
  GridProofs AccumProofs P2GProofs PlateProofs TimeProofs.
Import ListNotations.
Local Open Scope R_scope.

Ltac nf := repeat first
  [ discriminate | apply rd_nf | apply upd_nf | apply stencil_nf; [intros; first [apply base_p2g_nf|apply base_g2p_nf]]
  | apply bind_nf; [|intros] | apply foldM_nf; intros | apply mapM_nf; intros ].

Ltac ifs := repeat match goal with |- (if ?c then _ else _) <> _ => destruct c end.

Section Fuel.
  Context {G : Geo R}.
  Variable svd : TM -> TM * TV * TM.
  Variable uabs : R -> R.

  Lemma getp_nf : forall P i, getp P i <> NoFuel. Proof. intros. unfold getp. cbv zeta. nf. Qed.
  Lemma putp_nf : forall P i q, putp P i q <> NoFuel. Proof. intros. unfold putp. cbv zeta. nf. Qed.
  Lemma ploop_nf : forall body sched P, (forall q, body q <> NoFuel) -> ploop body sched P <> NoFuel.
  Proof. intros. unfold ploop. nf; auto using getp_nf, putp_nf. Qed.

  Lemma plasticity_nf : forall p dt F tau h, plasticity svd uabs p dt F tau h <> NoFuel.
  Proof.
    intros. unfold plasticity. destruct (svd F) as [[U s] V]. cbv zeta. apply bind_nf; [|discriminate].
    unfold return_map. destruct (plastic_model p); try discriminate.
    - unfold pl_MCC. cbv zeta. destruct (mcc_rma _ _ _ _ _ _) as [[r pc]|]; [|discriminate]. destruct (rm_plastic r); [|discriminate].
      match goal with |- (let '(_, _) := ?x in _) <> _ => destruct x as [[b q] ex] end. apply bind_nf; [|discriminate].
      destruct (use_mibf p); [|discriminate]. apply bind_nf; [destruct (hardening_law p), pc; discriminate|]. intros c _.
      destruct (_ || _); [discriminate|]. destruct (use_dl p); discriminate.
    - unfold pl_MCC. cbv zeta. destruct (mcc_rma _ _ _ _ _ _) as [[r pc]|]; [|discriminate]. destruct (rm_plastic r); [|discriminate].
      match goal with |- (let '(_, _) := ?x in _) <> _ => destruct x as [[b q] ex] end. apply bind_nf; [|discriminate].
      destruct (use_mibf p); [|discriminate]. apply bind_nf; [destruct (hardening_law p), pc; discriminate|]. intros c _.
      destruct (_ || _); [discriminate|]. destruct (use_dl p); discriminate.
    - unfold pl_MCCMui. cbv zeta. destruct (mcc_rma _ _ _ _ _ _) as [[r pc]|]; [|discriminate]. destruct (rm_plastic r); [|discriminate].
      match goal with |- (let '(_, _) := ?x in _) <> _ => destruct x as [q h2] end. discriminate.
  Qed.

  Lemma g2p_nf : forall p axes nodes dt sched P, g2p (plast svd uabs) p axes nodes dt sched P <> NoFuel.
  Proof.
    intros. unfold g2p. apply ploop_nf. intros q. unfold g2p_particle, g_pic, g_vgrad, g_B, g_flip, gather, gatherM. cbv zeta. nf.
    - ifs; nf.
    - ifs; nf.
    - destruct (use_musl p); [discriminate|]. unfold strain_particle. apply bind_nf; [apply plasticity_nf|discriminate].
  Qed.
  Lemma def_nf : forall p axes nodes dt sched P, deformationUpdate (plast svd uabs) p axes nodes dt sched P <> NoFuel.
  Proof.
    intros. unfold deformationUpdate. apply ploop_nf. intros q. unfold def_particle, strain_particle, g_vgrad, gatherM. nf. apply plasticity_nf.
  Qed.
  Lemma p2g_nf : forall p axes P sched nodes, p2g p axes P sched nodes <> NoFuel.
  Proof.
    intros. unfold p2g, p2g_accumulate, p2g_thread. nf. unfold p2g_particle. cbv zeta. nf.
    - ifs; nf.
    - ifs; nf.
    - unfold p2g_item. ifs; nf.
  Qed.
  Lemma musl_nf : forall p axes P sched nodes, musl_grid p axes P sched nodes <> NoFuel.
  Proof.
    intros. unfold musl_grid. nf. unfold musl_particle. cbv zeta. nf.
    - ifs; nf.
    - unfold musl_item. ifs; nf.
  Qed.
  Lemma collide_nf : forall bc f n v, n <> NoFuel -> collide bc f n v <> NoFuel.
  Proof.
    intros bc f n v Hn. destruct bc; cbn; [discriminate| |]; unfold collide; nf; auto;
    repeat match goal with |- context [if ?c then _ else _] => destruct c end; nf; auto.
  Qed.
  Lemma bc_nf : forall p plates dt nfr X v, objects_return p -> boundaryCollision p plates dt nfr X v <> NoFuel.
  Proof.
    intros p plates dt nfr X v Ho. unfold boundaryCollision, objects_loop. cbv zeta. nf.
    - eapply Ho; eauto.
    - destruct x0; [|discriminate]. apply collide_nf. eapply Ho; eauto.
  Qed.
  Lemma euler_nf : forall p plates dt g axes sched nodes, objects_return p -> euler p plates dt g axes sched nodes <> NoFuel.
  Proof.
    intros p plates dt g axes sched nodes Ho. unfold euler. nf.
    - unfold node_list. destruct axes as [|? [|? [|? [|? ?]]]]; nf.
    - unfold euler_node. cbv zeta. ifs; [|discriminate]. apply bind_nf; [now apply bc_nf|discriminate].
  Qed.
  Lemma pbcAdd_nf : forall p sf sched P, pbcAdd p sf sched P <> NoFuel.
  Proof. 
    intros. unfold pbcAdd. apply foldM_nf. intros [P' n] i _. unfold pbc_add_step. apply bind_nf; [apply rd_nf|]. intros x _.
    destruct (pbc_image p sf x); [|discriminate]. apply bind_nf; [|discriminate]. unfold push_copy. cbv zeta. nf.
  Qed.
  Lemma pbcDel_nf : forall n P, pbcDel n P <> NoFuel.
  Proof. intros. unfold pbcDel, erase_last. repeat (apply bind_nf; [ifs; discriminate|intros]); discriminate. Qed.

  (** A computation bounded by fuel settles: from some amount of fuel on its outcome is the same,
      and not that of having run out. *)
  Definition settles {X} (r : nat -> res X) : Prop := exists f0 v, v <> NoFuel /\ forall f, (f0 <= f)%nat -> r f = v.
  Lemma settles_const : forall X (v : res X), v <> NoFuel -> settles (fun _ => v).
  Proof. intros X v H. exists 0%nat, v. auto. Qed.
  Lemma settles_bind : forall X Y (r : nat -> res X) (k : nat -> X -> res Y), settles r -> (forall x, settles (fun f => k f x)) ->
    settles (fun f => bind (r f) (k f)).
  Proof.
    intros X Y r k (f0 & v & Hv & H) Hk. destruct v as [x| |]; [|exists f0, UB; split; [discriminate|]; intros f Hf; now rewrite H|congruence].
    destruct (Hk x) as (f1 & w & Hw & H1). exists (Nat.max f0 f1), w. split; auto. intros f Hf. rewrite H by lia. cbn. apply H1. lia.
  Qed.
  Lemma settles_mapM : forall X Y (g : nat -> X -> res Y) l, (forall x, settles (fun f => g f x)) -> settles (fun f => mapM (g f) l).
  Proof.
    intros X Y g l H. induction l as [|x l IH]; cbn; [apply settles_const; discriminate|].
    apply settles_bind; auto. intros y. apply settles_bind; auto. intros ys. apply settles_const. discriminate.
  Qed.
  Lemma settles_ext : forall X (r r' : nat -> res X), (forall f, r f = r' f) -> settles r -> settles r'.
  Proof. intros X r r' E (f0 & v & Hv & H). exists f0, v. split; auto. intros f Hf. rewrite <- E. auto. Qed.

  Lemma arange_mono : forall f f' (v stop step : R) l, (f <= f')%nat -> arange_loop f v stop step = Some l -> arange_loop f' v stop step = Some l.
  Proof.
    induction f; intros f' v stop step l Hle H; destruct f'; try lia; cbn [arange_loop] in *.
    - destruct (nltb v stop); [discriminate|auto].
    - destruct (nltb v stop); [discriminate|auto].
    - destruct (nltb v stop); auto. destruct (arange_loop f _ _ _) eqn:E; [|discriminate]. rewrite (IHf f' _ _ _ l0) by (auto; lia). auto.
  Qed.
  Lemma mk_axis_settles : forall a b step, 0 < step -> settles (fun f => mk_axis f a b step).
  Proof.
    intros a b step H. unfold mk_axis. apply settles_bind.
    - destruct (arange_terminates' a b step H) as (f0 & H0). destruct (H0 f0 (le_n _)) as (l & El). exists f0, (Ok l). split; [discriminate|].
      intros f Hf. unfold arange. now rewrite (arange_mono f0 f a b step l Hf El).
    - intros l. apply settles_const. nf.
  Qed.
  Lemma max_elem_nf : forall l : list R, max_elem l <> NoFuel. Proof. intros [|? ?]; discriminate. Qed.
  Lemma min_elem_nf : forall l : list R, min_elem l <> NoFuel. Proof. intros [|? ?]; discriminate. Qed.
  Lemma cont_high_nf : forall p m x, cont_high (A := R) p m x <> NoFuel.
  Proof. intros. unfold cont_high, shift_factor. ifs; nf; apply to_uint_nf. Qed.
  Lemma cont_low_nf : forall p m x, cont_low (A := R) p m x <> NoFuel.
  Proof. intros. unfold cont_low, shift_factor. ifs; nf; apply to_uint_nf. Qed.

  Lemma remesh_settles : forall p s, 0 < dx p -> settles (fun af => remesh af p s).
  Proof.
    intros p s Hd. unfold remesh. destruct (use_pbc p); destruct (s_step s =? 0)%Z.
    - apply settles_bind; [|intros; apply settles_const; discriminate]. apply settles_mapM. intros k. unfold remeshFixed_axis.
      destruct k as [|[|k]]; now apply mk_axis_settles.
    - apply settles_const. discriminate.
    - apply settles_bind; [|intros; apply settles_const; discriminate]. apply settles_mapM. intros k. unfold remeshInit_axis.
      apply settles_bind; [apply settles_const, max_elem_nf|]. intros mx. apply settles_bind; [apply settles_const, min_elem_nf|]. intros mn.
      destruct (ref_adjust p k mn mx). cbv zeta. apply settles_bind; [now apply mk_axis_settles|]. intros. apply settles_const. discriminate.
    - apply settles_bind; [|intros; apply settles_const; discriminate]. apply settles_mapM. intros mk. unfold remeshCont_axis.
      apply settles_bind; [apply settles_const, max_elem_nf|]. intros mx. apply settles_bind; [apply settles_const, min_elem_nf|]. intros mn.
      apply settles_bind; [apply settles_const, cont_high_nf|]. intros hi. apply settles_bind; [apply settles_const, cont_low_nf|]. intros lo.
      now apply mk_axis_settles.
  Qed.

  Theorem step_settles : forall p sc s, 0 < dx p -> objects_return p -> settles (fun af => advanceStep svd uabs af p sc s).
  Proof.
    intros p sc s Hd Ho. unfold advanceStep. cbv zeta.
    apply settles_bind; [apply settles_const; unfold updateDt; apply bind_nf; [unfold max_speed; destruct (p_v (s_p s)); discriminate|discriminate]|]. intros s1.
    apply settles_bind; [now apply remesh_settles|]. intros s2. apply settles_const.
    apply bind_nf; [unfold pbc_before; ifs; [apply bind_nf; [apply pbcAdd_nf|discriminate]|discriminate]|]. intros s3 _.
    apply bind_nf; [apply p2g_nf|]. intros g1 _. apply bind_nf; [now apply euler_nf|]. intros g2 _.
    apply bind_nf; [unfold pbc_after; ifs; [apply bind_nf; [apply pbcDel_nf|discriminate]|discriminate]|]. intros s5 _. apply bind_nf; [apply g2p_nf|]. intros r _.
    apply bind_nf; [|intros s7 _; apply bind_nf; [apply ploop_nf; discriminate|discriminate]].
    unfold musl_part. ifs; [|discriminate]. apply bind_nf; [apply ploop_nf; discriminate|]. intros r' _.
    apply bind_nf; [apply musl_nf|]. intros g _. apply bind_nf; [apply def_nf|]. discriminate.
  Qed.

  (** The main loop: the remaining time bounds the number of steps. *)
  Theorem loop_settles : forall n p sch k s, 0 < dx p -> objects_return p -> clock_ok p -> clock_inv p s ->
    final_time p - s_time s <= INR n * min_dt p ->
    exists f0, exists v, v <> NoFuel /\ forall af fuel, (f0 <= af)%nat -> (n <= fuel)%nat -> sim_loop svd uabs fuel af p sch k s = v.
  Proof.
    induction n as [|n IH]; intros p sch k s Hd Ho Hc Hi Ht.
    - exists 0%nat, (Ok (Finished, s, [])). split; [discriminate|]. intros af fuel _ _.
      assert (H : (end_frame p <= s_frame s)%Z).
      { destruct Hc as (Hf & Hm & Hfd). destruct Hi as (_ & _ & _ & U). rewrite final_R in Ht. cbn [INR] in Ht.
        apply Znot_gt_le. intros K. assert (K' : IZR (s_frame s + 1) <= IZR (end_frame p)) by (apply IZR_le; lia).
        rewrite <- frame_dt_R in Hfd. assert (0 <= frame_dt p) by lra.
        apply (Rmult_le_compat_l (frame_dt p)) in K'; auto. lra. }
      destruct fuel; cbn [sim_loop]; rewrite (proj2 (Z.ltb_ge _ _) H); reflexivity.
    - destruct (Z_lt_le_dec (s_frame s) (end_frame p)) as [Hlt|Hge].
      2:{ exists 0%nat, (Ok (Finished, s, [])). split; [discriminate|]. intros af fuel _ _.
          destruct fuel; cbn [sim_loop]; rewrite (proj2 (Z.ltb_ge _ _) Hge); reflexivity. }
      destruct (step_settles p (sch k) s Hd Ho) as (f1 & v1 & Hv1 & H1).
      destruct v1 as [s1| |]; [| |congruence].
      2:{ exists f1, UB. split; [discriminate|]. intros af fuel Ha Hf. destruct fuel as [|fuel]; [lia|]. cbn [sim_loop].
          rewrite (proj2 (Z.ltb_lt _ _) Hlt), (H1 af Ha). reflexivity. }
      destruct (step_inv svd uabs f1 p (sch k) s s1 Hc Hi Hlt (H1 f1 (le_n _))) as (I2 & T2 & _).
      destruct (s_exit s1) eqn:X.
      { exists f1, (Ok (Aborted, s1, [])). split; [discriminate|]. intros af fuel Ha Hf. destruct fuel as [|fuel]; [lia|]. cbn [sim_loop].
        rewrite (proj2 (Z.ltb_lt _ _) Hlt), (H1 af Ha). cbn [bind]. now rewrite X. }
      destruct (at_end p (tick p s1)) eqn:AE.
      { eexists f1, (Ok _). split; [discriminate|]. intros af fuel Ha Hf. destruct fuel as [|fuel]; [lia|]. cbn [sim_loop].
        rewrite (proj2 (Z.ltb_lt _ _) Hlt), (H1 af Ha). cbn [bind]. cbv zeta. rewrite X, AE. reflexivity. }
      destruct (IH p sch (S k) (tick p s1) Hd Ho Hc I2) as (f2 & v2 & Hv2 & H2); [rewrite S_INR in Ht; lra|].
      eexists (Nat.max f1 f2), _. split; cycle 1.
      { intros af fuel Ha Hf. destruct fuel as [|fuel]; [lia|]. cbn [sim_loop].
        rewrite (proj2 (Z.ltb_lt _ _) Hlt), (H1 af) by lia. cbn [bind]. cbv zeta. rewrite X, AE. rewrite H2 by lia. reflexivity. }
      destruct v2; [discriminate|discriminate|congruence].
  Qed.
End Fuel.
