(** * FloatForce: gradients, nodal forces and the list of nodes in double precision. *)
From Coq Require Import ZArith Reals Lra Lia List Bool Floats.SpecFloat Permutation.
From Flocq Require Import Core.
From Verif Require Import Num NumF Tools Lin Types Objects Remesh Transfer Spec SpecF SpecGridF SpecForceF ResProofs PlasticModels LinProofs GridProofs IndexProofs PloopProofs StepProofs FloatBase FloatGrid FloatKernel FloatPbc FloatSum FloatVel PropGridF.
Import ListNotations.
Local Open Scope R_scope.

(** ** Ranges *)
Definition rg (i j : Z) (x : R) : Prop := bpow radix2 i <= x <= bpow radix2 j.
Lemma rg_pos : forall i j x, rg i j x -> 0 < x.
Proof. intros i j x (H & _). eapply Rlt_le_trans; [apply bpow_gt_0|exact H]. Qed.
Lemma rg_mul : forall i j k l x y, rg i j x -> rg k l y -> rg (i + k) (j + l) (x * y).
Proof.
  intros i j k l x y Hx Hy. pose proof (rg_pos _ _ _ Hx). pose proof (rg_pos _ _ _ Hy). destruct Hx, Hy. unfold rg. rewrite !bpow_plus.
  split; apply Rmult_le_compat; try apply bpow_ge_0; auto; lra.
Qed.
Lemma rg_inv : forall i j x, rg i j x -> rg (- j) (- i) (/ x).
Proof. intros i j x H. pose proof (rg_pos _ _ _ H). destruct H. unfold rg. rewrite !bpow_opp. split; apply Rinv_le_contravar; auto. apply bpow_gt_0. Qed.
Lemma rg_weak : forall i j k l x, rg i j x -> (k <= i)%Z -> (j <= l)%Z -> rg k l x.
Proof. intros i j k l x (H1 & H2) A B. split; [eapply Rle_trans; [apply bpow_le; exact A|auto]|eapply Rle_trans; [exact H2|now apply bpow_le]]. Qed.
Lemma rg_const : forall c, 1 <= c <= 1024 -> rg 0 10 c.
Proof. intros c H. unfold rg. change (bpow radix2 0) with 1. change (bpow radix2 10) with 1024. exact H. Qed.
Lemma wm_rg : rg (-86) (-80) wm.
Proof. unfold rg. replace (bpow radix2 (-86)) with (/ 77371252455336267181195264) by (cbn; lra). replace (bpow radix2 (-80)) with (/ 1208925819614629174706176) by (cbn; lra). unfold wm. lra. Qed.

(** ** The list of nodes *)
Section NodeList.
  Context {A : Type} {NA : Num A} {G : Geo A}.
  Variable d : A.
  Let co (a : Axis A) (i : nat) : A := nth i (ax_co a) d.
  Let ln (a : Axis A) : nat := length (ax_co a).
  Lemma ax_n_len : forall a, (Z.of_nat (ln a) <= 4294967295)%Z -> ax_n a = Z.of_nat (ln a).
  Proof. intros a H. unfold ax_n, wrapu. apply Z.mod_small. unfold ln in *. lia. Qed.
  Lemma any_axis_loop : forall a, (Z.of_nat (ln a) <= 4294967295)%Z ->
    mapM (fun i => x <- rd (ax_co a) i ;; Ok (i, x)) (zseq (ax_n a)) = Ok (map (fun i => (Z.of_nat i, co a i)) (seq 0 (ln a))).
  Proof.
    intros a F. rewrite ax_n_len by auto. rewrite zseq_nat. rewrite (mapM_total _ (fun i => (i, co a (Z.to_nat i)))).
    - rewrite map_map. f_equal. apply map_ext. intros i. now rewrite Nat2Z.id.
    - intros x Hx. apply in_map_iff in Hx. destruct Hx as (i & <- & Hi). apply in_seq in Hi. rewrite rd_nat, Nat2Z.id. unfold co.
      rewrite (nth_error_nth' _ d) by (unfold ln in Hi; lia). reflexivity.
  Qed.
  Lemma any_node_list : forall axes, (length axes = 2 \/ length axes = 3)%nat -> (forall a, In a axes -> Z.of_nat (ln a) <= 4294967295)%Z -> (prodlen axes <= 4294967295)%Z ->
    exists X, node_list axes = Ok (map (fun n => (Z.of_nat n, X n)) (seq 0 (Z.to_nat (prodlen axes)))).
  Proof.
    intros axes [E|E] Hl Hp.
    - destruct axes as [|ax [|ay [|az r]]]; try discriminate. set (nx := ln ax). set (ny := ln ay).
      exists (fun n => vset (vset vzero 0 (co ax (n / ny))) 1 (co ay (n mod ny))). unfold node_list. rewrite !any_axis_loop by (apply Hl; cbn; auto). cbn [bind]. f_equal. rewrite flat_map_map.
      replace (Z.to_nat (prodlen [ax; ay])) with (nx * ny)%nat by (unfold prodlen, nx, ny, ln; simpl; lia).
      transitivity (flat_map (fun i => map (fun j => (Z.of_nat (i * ny + j), vset (vset vzero 0 (co ax i)) 1 (co ay j))) (seq 0 ny)) (seq 0 nx)).
      + apply flat_map_ext_in. intros i Hi. apply in_seq in Hi. rewrite map_map. apply map_ext_in. intros j Hj. apply in_seq in Hj.
        cbn [fst snd]. rewrite ax_n_len by (apply Hl; cbn; auto). fold ny.
        assert (F' : (Z.of_nat nx * Z.of_nat ny <= 4294967295)%Z) by (unfold prodlen in Hp; simpl in Hp; unfold nx, ny, ln; lia).
        destruct (ind2_val (Z.of_nat nx) (Z.of_nat ny) (Z.of_nat i) (Z.of_nat j)) as [E' _]; try (unfold nx, ny in *; lia). rewrite E'. f_equal; lia.
      + rewrite map_lin. apply map_ext_in. intros n Hn. apply in_seq in Hn. cbn beta. f_equal.
        assert (ny <> 0)%nat by nia. rewrite (Nat.mul_comm (n / ny)), <- Nat.div_mod by lia. auto.
    - destruct axes as [|ax [|ay [|az [|aw r]]]]; try discriminate. set (nx := ln ax). set (ny := ln ay). set (nz := ln az).
      exists (fun n => vset (vset (vset vzero 0 (co ax (n / nz / ny))) 1 (co ay (n / nz mod ny))) 2 (co az (n mod nz))). unfold node_list. rewrite !any_axis_loop by (apply Hl; cbn; auto). cbn [bind]. f_equal. rewrite flat_map_map.
      replace (Z.to_nat (prodlen [ax; ay; az])) with (nx * ny * nz)%nat by (unfold nx, ny, nz, prodlen, ln; simpl; lia).
      fold nx ny nz.
      transitivity (flat_map (fun m => map (fun k => (Z.of_nat (m * nz + k), vset (vset (vset vzero 0 (co ax (m / ny))) 1 (co ay (m mod ny))) 2 (co az k))) (seq 0 nz)) (seq 0 (nx * ny))).
      2: { rewrite map_lin. apply map_ext_in. intros n Hn. apply in_seq in Hn. cbn beta. f_equal. assert (nz <> 0)%nat by nia. rewrite (Nat.mul_comm (n / nz)), <- Nat.div_mod by lia. auto. }
      rewrite <- (flat_map_lin _ (fun m => map _ (seq 0 nz)) ny nx).
      apply flat_map_ext_in. intros i Hi. apply in_seq in Hi. rewrite flat_map_map. apply flat_map_ext_in. intros j Hj. apply in_seq in Hj.
      rewrite map_map. apply map_ext_in. intros k Hk. apply in_seq in Hk. cbn [fst snd]. rewrite !ax_n_len by (apply Hl; cbn; auto). fold nx ny nz.
      destruct (ind3_val (Z.of_nat nx) (Z.of_nat ny) (Z.of_nat nz) (Z.of_nat i) (Z.of_nat j) (Z.of_nat k)) as [E' _]; try lia.
      { unfold prodlen in Hp; simpl in Hp. unfold nx, ny, nz, ln. lia. }
      rewrite E'.
      assert (Q1 : ((i * ny + j) / ny = i)%nat) by (rewrite Nat.add_comm, Nat.div_add by lia; rewrite Nat.div_small; lia).
      assert (Q2 : ((i * ny + j) mod ny = j)%nat) by (rewrite Nat.add_comm, Nat.mod_add by lia; apply Nat.mod_small; lia).
      rewrite Q1, Q2. f_equal; lia.
  Qed.
  (** The loop over the nodes updates each node once. *)
  Lemma any_euler : forall p plates dt grav axes order nodes, (length axes = 2 \/ length axes = 3)%nat -> (forall a, In a axes -> Z.of_nat (ln a) <= 4294967295)%Z -> (prodlen axes <= 4294967295)%Z ->
    Permutation order (seq 0 (length nodes)) -> Z.of_nat (length nodes) = prodlen axes ->
    (forall X nd, In nd nodes -> exists nd', euler_node p plates dt grav X nd = Ok nd') ->
    exists nodes', euler p plates dt grav axes order nodes = Ok nodes' /\ length nodes' = length nodes /\
      forall nd', In nd' nodes' -> exists X nd, In nd nodes /\ euler_node p plates dt grav X nd = Ok nd'.
  Proof.
    intros p plates dt grav axes order nodes Hd Hl Hp Ho Ln He. destruct (any_node_list axes Hd Hl Hp) as (X & EX). rewrite <- Ln, Nat2Z.id in EX.
    destruct (perm_seq _ _ Ho) as (ND & HI). set (f := fun k nd => euler_node p plates dt grav (X k) nd).
    assert (K : forall sched g, (forall k, In k sched -> (k < length nodes)%nat) -> euler p plates dt grav axes sched g = foldM (istep f) sched g).
    { intros sched g H. unfold euler. rewrite EX. cbn [bind]. revert g. induction sched as [|k sched IH]; intros g; auto. cbn [foldM].
      assert (Ek : rd (map (fun n => (Z.of_nat n, X n)) (seq 0 (length nodes))) (Z.of_nat k) = Ok (Z.of_nat k, X k)).
      { rewrite rd_nat, nth_error_map. specialize (H k (or_introl eq_refl)). rewrite (nth_error_nth' _ 0%nat) by (rewrite seq_length; auto). rewrite seq_nth by auto. reflexivity. }
      rewrite Ek. cbn [bind fst snd]. unfold istep at 1. unfold f at 1.
      destruct (rd g (Z.of_nat k)) as [nd| |]; cbn [bind]; auto. destruct (euler_node p plates dt grav (X k) nd) as [nd'| |]; cbn [bind]; auto.
      destruct (upd g (Z.of_nat k) (fun _ => nd')) as [g1| |]; cbn [bind]; auto. apply IH. intros; apply H; now right. }
    destruct (ifold_bwd f order nodes ND) as (g & Eg).
    { intros k Hk. apply HI in Hk. destruct (nth_error nodes k) as [nd|] eqn:E; [|apply nth_error_None in E; lia]. destruct (He (X k) nd (nth_error_In _ _ E)) as (nd' & E'). exists nd, nd'. auto. }
    exists g. split; [rewrite K; auto; intros k Hk; now apply HI|]. destruct (ifold_perm f order (length nodes) nodes g Ho eq_refl Eg) as (L1 & L2). split; auto.
    intros nd' Hi. apply In_nth_error in Hi. destruct Hi as (k & Ek). assert (Hk : (k < length nodes)%nat) by (rewrite <- L1; apply nth_error_Some; congruence).
    destruct (nth_error nodes k) as [nd|] eqn:E; [|apply nth_error_None in E; lia]. destruct (L2 k nd E) as (y & Ey & Ek'). exists (X k), nd. split; [eapply nth_error_In; eauto|]. unfold f in Ey. congruence.
  Qed.
End NodeList.

(** ** Gradients *)
Section Grad.
  Variable L : Libm.
  Hint Extern 0 (Num F) => exact (NumF L) : typeclass_instances.

  Lemma rnd_unit : forall x, Rabs x <= 1 -> Rabs (rnd x) <= 1.
  Proof. intros x H. rewrite rnd_abs. replace 1 with (rnd (IZR 1)) by (rewrite rnd_IZR; [reflexivity|cbn; lia]). now apply rnd_mono. Qed.
  Lemma one_big : forall x, Rabs x <= 1 -> Rabs (rnd x) < fmax.
  Proof. intros x H. apply rnd_small. eapply Rle_trans; [exact H|]. change 1 with (bpow radix2 0). apply bpow_le. lia. Qed.
  Lemma dN2_F : forall u, ffin u -> ffin (@dN2 F (NumF L) u) /\ Rabs (fval (@dN2 F (NumF L) u)) <= 1.
  Proof.
    intros u Fu. destruct (fabs_spec u Fu) as (Fa & Ea). destruct half_F as (Fh & Eh). destruct threehalf_F as (Ft & Et).
    unfold dN2. cbv zeta. change (@nofQ F (NumF L)) with fofQ. change (@nltb F (NumF L)) with SFltb. change (@nabs F (NumF L)) with SFabs. change (@nsub F (NumF L)) with (SFsub fprec femax). change (@nmul F (NumF L)) with (SFmul fprec femax). rewrite !flt_spec by auto. rewrite Ea, Eh, Et.
    destruct (Rlt_bool_spec (Rabs (fval u)) (1/2)) as [C|C]; [|destruct (Rlt_bool_spec (Rabs (fval u)) (3/2)) as [D|D]].
    - destruct (nofZ_F L (-2) ltac:(lia)) as (F2 & V2). assert (B : Rabs (fval (@nofZ F (NumF L) (-2)) * fval u) <= 1) by (rewrite V2; apply Rabs_lt_inv in C; apply Rabs_le; lra).
      destruct (fmul_spec _ _ F2 Fu (one_big _ B)) as (F3 & E3). split; auto. rewrite E3. now apply rnd_unit.
    - destruct (nofZ_F L 0 ltac:(lia)) as (F0 & V0).
      assert (S : exists z, (z = 1 \/ z = -1)%Z /\ sgn (NA := NumF L) u = z /\ Rabs (fval u - 3/2 * IZR z) <= 1).
      { unfold sgn. change (@nltb F (NumF L)) with SFltb. rewrite !flt_spec by auto. rewrite V0.
        unfold Rabs in C, D. destruct (Rcase_abs (fval u)).
        - exists (-1)%Z. split; auto. split; [rewrite Rlt_bool_false, Rlt_bool_true by lra; reflexivity|apply Rabs_le; lra].
        - exists 1%Z. split; auto. split; [rewrite Rlt_bool_true, Rlt_bool_false by lra; reflexivity|apply Rabs_le; lra]. }
      destruct S as (z & Hz & -> & B). destruct (nofZ_F L z ltac:(lia)) as (Fz & Vz).
      assert (Er : rnd (fval (fofQ 3 2) * fval (@nofZ F (NumF L) z)) = 3/2 * IZR z).
      { rewrite Vz. pose proof (rnd_id _ Ft) as R1. rewrite Et in R1 |- *. destruct Hz as [-> | ->]; [rewrite Rmult_1_r; exact R1|]. replace (3/2 * IZR (-1)) with (- (3/2)) by lra. rewrite rnd_opp, R1. reflexivity. }
      destruct (fmul_spec _ _ Ft Fz) as (F3 & E3).
      { apply rnd_small. rewrite Et, Vz. apply Rle_trans with (bpow radix2 1); [change (bpow radix2 1) with 2; destruct Hz as [-> | ->]; apply Rabs_le; lra|apply bpow_le; lia]. }
      rewrite Er in E3. rewrite <- E3 in B. destruct (fsub_spec _ _ Fu F3 (one_big _ B)) as (F4 & E4). split; auto. rewrite E4. now apply rnd_unit.
    - destruct (nofZ_F L 0 ltac:(lia)) as (F0 & V0). split; auto. rewrite V0, Rabs_R0. lra.
  Qed.

  Context {G : Geo F}.
  Hypothesis HG : two_or_threeF G.
  Variable M : R.
  Variable p : Par F.
  Variable xs : list TV.
  Variable axes : list (Axis F).
  Hypothesis Hc : cloud_okF L M p xs.
  Hypothesis Ha : axes_okF M p xs axes.
  Hypothesis Hs : spline p = Deg2.
  Hypothesis Hh : ordinary (fval (dx p)).
  Let h := fval (dx p).
  Lemma hr : rg (-100) 100 h. Proof. exact Hh. Qed.
  Lemma ihr : rg (-100) 100 (/ h). Proof. exact (rg_inv _ _ _ hr). Qed.
  Lemma axis_grad : forall k a x b l it, nth_error axes k = Some a -> In x xs -> base_p2g p a (vget x k) = Ok b -> ax_items p a (vget x k) b = Ok l -> In it l ->
    ffin (ai_w it) /\ 0 <= fval (ai_w it) <= 1 /\ ffin (ai_g it) /\ Rabs (fval (ai_g it)) <= 1001/1000 * / h.
  Proof.
    intros k a x b l it Hn Hx Eb El Hit. destruct Ha as (_ & A). destruct (A k a Hn) as (Hk & I). destruct (axis_stencil L p M xs Hc k a x Hk I Hx) as (b' & P0 & _ & Z0 & N0 & Q0).
    assert (b' = b) as -> by (rewrite P0 in Eb; now apply Ok_inj in Eb). pose proof (cl_M L M p xs Hc) as HM. pose proof (cl_dx L M p xs Hc) as Hd. pose proof (h_pos p Hd) as P.
    destruct (axis_weights L p M xs Hc Hs k a x b l Hk I Hx Z0 N0 Q0 El) as (F1 & _). rewrite Forall_forall in F1. destruct (F1 it Hit) as (Fw & Bw). split; auto. split; [lra|].
    assert (K : exists xi, (exists i, nth_error (ax_co a) i = Some xi) /\ ai_g it = @nmul F (NumF L) (dN2 (nmul (nsub (vget x k) xi) (one_over_dx p))) (one_over_dx p)).
    { unfold ax_items in El. cbn [mapM] in El.
      apply bind_Ok in El. destruct El as (i0 & R0 & El). apply bind_Ok in El. destruct El as (q0 & El & Q). apply Ok_inj in Q. subst l.
      apply bind_Ok in El. destruct El as (i1 & R1 & El). apply bind_Ok in El. destruct El as (q1 & El & Q). apply Ok_inj in Q. subst q0.
      apply bind_Ok in El. destruct El as (i2 & R2 & El). apply bind_Ok in El. destruct El as (q2 & El & Q). apply Ok_inj in Q. subst q1.
      apply bind_Ok in El. destruct El as (i3 & R3 & El). apply bind_Ok in El. destruct El as (q3 & El & Q). apply Ok_inj in Q. subst q2. apply Ok_inj in El. subst q3.
      assert (T : forall d i, ax_item (NA := NumF L) p a (vget x k) (b + d) = Ok i -> exists xi, (exists i, nth_error (ax_co a) i = Some xi) /\ ai_g i = @nmul F (NumF L) (dN2 (nmul (nsub (vget x k) xi) (one_over_dx p))) (one_over_dx p)).
      { intros d i H. unfold ax_item in H. apply bind_Ok in H. destruct H as (xi & Er & H). apply Ok_inj in H. subst i. cbn [ai_g]. rewrite Hs. exists xi. split; [|reflexivity]. apply rd_Ok in Er. destruct Er as (_ & Er). eauto. }
      destruct Hit as [<-|[<-|[<-|[<-|[]]]]]; eapply T; eassumption. }
    destruct K as (xi & (i & Ei) & Eg). rewrite Eg. destruct (ia_co _ _ _ _ _ I _ _ Ei) as (Fi & Bi & _). destruct (cl_xs L M p xs Hc x k Hx Hk) as (Fx & Bx).
    destruct (scaled L p M HM Hd (vget x k) xi Fx Fi) as (Fu & _); [fold h in P, Bx |- *; apply Rabs_le_inv in Bx; apply Rabs_le; nra|exact Bi|]. cbv zeta in Fu.
    destruct (dN2_F _ Fu) as (Fn & Bn). destruct (inv_h L p Hd) as (Fo & Eo). fold h in Eo, P. pose proof (rg_pos _ _ _ ihr) as Ip. pose proof eps_pos as E0.
    assert (Bo : Rabs (fval (one_over_dx (NA := NumF L) p)) <= (1 + eps) * / h) by (apply Rabs_le_inv in Eo; apply Rabs_le; nra).
    change (@nmul F (NumF L)) with (SFmul fprec femax).
    assert (rr : rg (-200) 200 (1 * ((1 + eps) * / h))).
    { rewrite Rmult_1_l. eapply rg_weak; [apply rg_mul; [apply rg_const; unfold eps; lra|exact ihr]|lia|lia]. }
    destruct (mulB _ _ _ _ Fn Fo Bn Bo) as (F2 & B2); [apply (rg_weak _ _ (-1000) 1000 _ rr); lia|]. split; auto. eapply Rle_trans; [exact B2|]. unfold eps. nra.
  Qed.
  Lemma mulg : forall g w c, ffin g -> ffin w -> Rabs (fval g) <= c * / h -> 1 <= c <= 2 -> 0 <= fval w <= 1 ->
    (ffin (SFmul fprec femax g w) /\ Rabs (fval (SFmul fprec femax g w)) <= (1 + eps) * c * / h) /\ (ffin (SFmul fprec femax w g) /\ Rabs (fval (SFmul fprec femax w g)) <= (1 + eps) * c * / h).
  Proof.
    intros g w c Fg Fw Bg Hcc Bw. assert (Aw : Rabs (fval w) <= 1) by (apply Rabs_le; lra).
    assert (rr : rg (-200) 200 (c * / h)) by (eapply rg_weak; [apply rg_mul; [apply rg_const; lra|exact ihr]|lia|lia]).
    split; [destruct (mulB _ _ _ _ Fg Fw Bg Aw) as (F1 & B1)|destruct (mulB _ _ _ _ Fw Fg Aw Bg) as (F1 & B1)];
      try (rewrite ?Rmult_1_r, ?Rmult_1_l; apply (rg_weak _ _ (-1000) 1000 _ rr); lia); (split; [exact F1|]; eapply Rle_trans; [exact B1|]; right; ring).
  Qed.
  Lemma items_grad : forall x items it k, In x xs -> stencil (base_p2g (NA := NumF L)) p axes x = Ok items -> In it items -> (k < dim)%nat ->
    ffin (vget (it_g it) k) /\ Rabs (fval (vget (it_g it) k)) <= 1002/1000 * / h.
  Proof.
    intros x items it k Hx Hst Hit Hk. pose proof axis_grad as AP. pose proof mulg as MG. pose proof (rg_pos _ _ _ ihr) as Ip. destruct Ha as (Ln & _).
    assert (MU : forall u v, ffin u -> ffin v -> 0 <= fval u <= 1 -> 0 <= fval v <= 1 -> ffin (SFmul fprec femax u v) /\ 0 <= fval (SFmul fprec femax u v) <= 1).
    { intros u v F1 F2 B1 B2. destruct (mul_unit _ _ F1 F2 B1 B2) as (Q1 & Q2 & _). auto. }
    assert (W : forall c y : R, Rabs y <= c * / h -> c <= 1002/1000 -> Rabs y <= 1002/1000 * / h) by (intros c y H1 H2; eapply Rle_trans; [exact H1|]; apply Rmult_le_compat_r; lra).
    destruct HG as [E | E].
    - subst G. destruct axes as [|ax [|ay [|az r]]] eqn:Ea; try discriminate. cbn [stencil] in Hst.
      apply bind_Ok in Hst. destruct Hst as (b0 & P0 & Hst). apply bind_Ok in Hst. destruct Hst as (b1 & P1 & Hst).
      apply bind_Ok in Hst. destruct Hst as (l0 & E0' & Hst). apply bind_Ok in Hst. destruct Hst as (l1 & E1 & Hst). apply Ok_inj in Hst. subst items.
      apply in_flat_map in Hit. destruct Hit as (i & Hi0 & Hi). apply in_map_iff in Hi. destruct Hi as (j & <- & Hi1).
      destruct (AP 0%nat ax x b0 l0 i eq_refl Hx P0 E0' Hi0) as (Fw & Bw & Fg & Bg). destruct (AP 1%nat ay x b1 l1 j eq_refl Hx P1 E1 Hi1) as (Fw1 & Bw1 & Fg1 & Bg1).
      destruct k as [|[|k]]; [| |cbn in Hk; lia].
      + destruct (MG _ _ _ Fg Fw1 Bg ltac:(lra) Bw1) as ((A1 & A2) & _). split; [exact A1|]. eapply W; [exact A2|]. unfold eps; lra.
      + destruct (MG _ _ _ Fg1 Fw Bg1 ltac:(lra) Bw) as (_ & (A1 & A2)). split; [exact A1|]. eapply W; [exact A2|]. unfold eps; lra.
    - subst G. destruct axes as [|ax [|ay [|az [|aw r]]]] eqn:Ea; try discriminate. cbn [stencil] in Hst.
      apply bind_Ok in Hst. destruct Hst as (b0 & P0 & Hst). apply bind_Ok in Hst. destruct Hst as (b1 & P1 & Hst). apply bind_Ok in Hst. destruct Hst as (b2 & P2 & Hst).
      apply bind_Ok in Hst. destruct Hst as (l0 & E0' & Hst). apply bind_Ok in Hst. destruct Hst as (l1 & E1 & Hst). apply bind_Ok in Hst. destruct Hst as (l2 & E2 & Hst). apply Ok_inj in Hst. subst items.
      apply in_flat_map in Hit. destruct Hit as (i & Hi0 & Hi). apply in_flat_map in Hi. destruct Hi as (j & Hi1 & Hi). apply in_map_iff in Hi. destruct Hi as (q & <- & Hi2).
      destruct (AP 0%nat ax x b0 l0 i eq_refl Hx P0 E0' Hi0) as (Fw & Bw & Fg & Bg). destruct (AP 1%nat ay x b1 l1 j eq_refl Hx P1 E1 Hi1) as (Fw1 & Bw1 & Fg1 & Bg1). destruct (AP 2%nat az x b2 l2 q eq_refl Hx P2 E2 Hi2) as (Fw2 & Bw2 & Fg2 & Bg2).
      destruct k as [|[|[|k]]]; [| | |cbn in Hk; lia].
      + destruct (MG _ _ _ Fg Fw1 Bg ltac:(lra) Bw1) as ((A1 & A2) & _). destruct (MG _ _ _ A1 Fw2 A2 ltac:(unfold eps; lra) Bw2) as ((A3 & A4) & _). split; [exact A3|]. eapply W; [exact A4|]. unfold eps; lra.
      + destruct (MG _ _ _ Fg1 Fw Bg1 ltac:(lra) Bw) as (_ & (A1 & A2)). destruct (MG _ _ _ A1 Fw2 A2 ltac:(unfold eps; lra) Bw2) as ((A3 & A4) & _). split; [exact A3|]. eapply W; [exact A4|]. unfold eps; lra.
      + destruct (MU _ _ Fw Fw1 Bw Bw1) as (M1 & M2). destruct (MG _ _ _ Fg2 M1 Bg2 ltac:(lra) M2) as (_ & (A1 & A2)). split; [exact A1|]. eapply W; [exact A2|]. unfold eps; lra.
  Qed.
  (** What one particle adds to the force at one node. *)
  Variable T : R.
  Hypothesis HT : ordinary T.
  Lemma force_bound : forall x items it (tau : TM) k, In x xs -> stencil (base_p2g (NA := NumF L)) p axes x = Ok items -> In it items -> (k < dim)%nat ->
    (forall k l, (k < dim)%nat -> (l < dim)%nat -> ffin (mget tau k l) /\ Rabs (fval (mget tau k l)) <= T) ->
    ffin (vget (mvec tau (it_g it)) k) /\ Rabs (fval (vget (mvec tau (it_g it)) k)) <= 301/100 * (T * / h).
  Proof.
    intros x items it tau k Hx Hst Hit Hk Ht. assert (Tr : rg (-100) 100 T) by exact HT. assert (qr : rg (-200) 200 (T * / h)) by (exact (rg_mul _ _ _ _ _ _ Tr ihr)). set (q := T * / h) in *. pose proof (rg_pos _ _ _ qr) as Q0.
    assert (Q1 : forall c, 1 <= c <= 1024 -> bpow radix2 (-1000) <= c * q <= bpow radix2 1000) by (intros c Hcc; apply (rg_weak (0 + -200) (10 + 200)); [apply rg_mul; [now apply rg_const|exact qr]|lia|lia]).
    assert (TT : forall l, (l < dim)%nat -> let t := SFmul fprec femax (mget tau k l) (vget (it_g it) l) in ffin t /\ Rabs (fval t) <= 1003/1000 * q).
    { intros l Hl. cbv zeta. destruct (items_grad x items it l Hx Hst Hit Hl) as (Fg & Bg). destruct (Ht k l Hk Hl) as (Ft & Bt). assert (Eq : T * (1002/1000 * / h) = 1002/1000 * q) by (unfold q; ring).
      destruct (mulB _ _ _ _ Ft Fg Bt Bg) as (F1 & B1); [rewrite Eq; apply Q1; lra|]. split; auto. eapply Rle_trans; [exact B1|]. rewrite Eq. assert (eps <= 1/10000) by (unfold eps; lra). nra. }
    unfold mvec. rewrite vgetF by auto. unfold sumd. assert (eps <= 1/10000) by (unfold eps; lra). pose proof (Q1 16 ltac:(lra)) as Q16. destruct (dimF G HG) as [D|D]; rewrite D in TT |- *; cbn [pred sumto]; change (@nadd F (NumF L)) with (SFadd fprec femax); change (@nmul F (NumF L)) with (SFmul fprec femax).
    - destruct (TT 0%nat ltac:(lia)) as (F0 & B0). destruct (TT 1%nat ltac:(lia)) as (F1 & B1). destruct (addB _ _ _ _ F0 F1 B0 B1) as (F2 & B2); [lra|]. split; auto. eapply Rle_trans; [exact B2|]. nra.
    - destruct (TT 0%nat ltac:(lia)) as (F0 & B0). destruct (TT 1%nat ltac:(lia)) as (F1 & B1). destruct (TT 2%nat ltac:(lia)) as (F2 & B2). destruct (addB _ _ _ _ F0 F1 B0 B1) as (F3 & B3); [lra|].
      assert (B3' : Rabs (fval (SFadd fprec femax (SFmul fprec femax (mget tau k 0) (vget (it_g it) 0)) (SFmul fprec femax (mget tau k 1) (vget (it_g it) 1)))) <= 20065/10000 * q) by (eapply Rle_trans; [exact B3|]; nra).
      destruct (addB _ _ _ _ F3 F2 B3' B2) as (F4 & B4); [lra|]. split; auto. eapply Rle_trans; [exact B4|]. nra.
  Qed.
End Grad.

(** ** Sums of forces, in any order *)
Section Force.
  Variable L : Libm.
  Hint Extern 0 (Num F) => exact (NumF L) : typeclass_instances.
  Context {G : Geo F}.
  Hypothesis HG : two_or_threeF G.
  Variable p : Par F.
  Variable N : nat.
  Variables V A fm : R.
  Hypothesis HV : bpow radix2 (-800) <= V <= bpow radix2 400.
  Hypothesis HA : bpow radix2 (-800) <= A <= bpow radix2 400.
  Hypothesis Hf : rg (-200) 210 fm.
  Definition DD : R := fm * / wm.
  Definition forQ (c : nat) (nd : Node F) (S : R) : Prop :=
    velQ L p V A c nd S /\ forall k, (k < dim)%nat -> ffin (vget (nd_f nd) k) /\ Rabs (fval (vget (nd_f nd) k)) <= DD * S * (1 + 4 * eps) ^ c.
  Lemma DD_rg : rg (-120) 296 DD.
  Proof. eapply rg_weak; [apply rg_mul; [exact Hf|apply rg_inv, wm_rg]|lia|lia]. Qed.
  Lemma forQ_mono : forall c d nd S, (c <= d)%nat -> forQ c nd S -> forQ d nd S.
  Proof.
    intros c d nd S H (H1 & H2). split; [now apply (velQ_mono L p V A HV HA) with c|]. intros k Hk. destruct (H2 k Hk) as (F1 & B1). split; auto. eapply Rle_trans; [exact B1|]. pose proof (rg_pos _ _ _ DD_rg). destruct H1 as (H1 & _). pose proof (acc_S _ _ _ H1). pose proof eps_pos.
    apply Rmult_le_compat_l; [apply Rmult_le_pos; lra|]. apply Rle_pow; auto. lra.
  Qed.
  Lemma forQ_zero : forQ 0 zero_node 0.
  Proof.
    split; [apply (velQ_zero L HG p V A)|]. intros k Hk. cbn [zero_node nd_f]. unfold vzero. rewrite vgetF by auto. destruct (nofZ_F L 0 ltac:(lia)) as (F0 & E0). split; auto. rewrite E0, Rabs_R0. cbn. lra.
  Qed.
  Lemma roomF : forall S c, 0 <= S <= bpow radix2 500 -> INR c * eps <= 1 -> 4 * (DD * S * (1 + 4 * eps) ^ c) <= bpow radix2 950.
  Proof.
    intros S c HS Hc. destruct DD_rg as (_ & DU). pose proof (rg_pos _ _ _ DD_rg) as D0. pose proof (pow_bound c Hc) as P1. pose proof (pow1 c).
    apply Rle_trans with (4 * (bpow radix2 296 * bpow radix2 500 * bpow radix2 7)).
    - apply Rmult_le_compat_l; [lra|]. apply Rmult_le_compat; [apply Rmult_le_pos; lra|lra|apply Rmult_le_compat; lra|]. change (bpow radix2 7) with 128. lra.
    - change 4 with (bpow radix2 2). rewrite <- !bpow_plus. apply bpow_le. lia.
  Qed.
  Lemma forQ_merge : forall c a b S W, forQ c a S -> forQ c b W -> INR c * eps <= 1 -> S + W <= bpow radix2 500 -> forQ (Datatypes.S c) (node_add p a b) (S + W).
  Proof.
    intros c a b S W (A1 & A2) (B1 & B2) Hc HS. pose proof (acc_S _ _ _ (proj1 A1)) as S0. pose proof (acc_S _ _ _ (proj1 B1)) as W0. pose proof (rg_pos _ _ _ DD_rg) as D0. pose proof eps_pos as E0. pose proof (pow1 c) as P1.
    split; [now apply (velQ_merge L HG p V A HV HA)|]. intros k Hk. cbn [node_add nd_f]. unfold vadd. rewrite vgetF by auto. change (@nadd F (NumF L)) with (SFadd fprec femax).
    destruct (A2 k Hk) as (F1 & C1). destruct (B2 k Hk) as (F2 & C2).
    pose proof (roomF (S + W) c ltac:(lra) Hc) as Rm. assert (bpow radix2 950 <= bpow radix2 1000) by (apply bpow_le; lia). pose proof (bpow_gt_0 radix2 950).
    destruct (addB _ _ _ _ F1 F2 C1 C2) as (F3 & C3); [lra|]. split; auto. eapply Rle_trans; [exact C3|]. cbn [pow].
    replace (DD * S * (1 + 4 * eps) ^ c + DD * W * (1 + 4 * eps) ^ c) with (DD * (S + W) * (1 + 4 * eps) ^ c) by ring.
    assert (0 <= DD * (S + W) * (1 + 4 * eps) ^ c) by (apply Rmult_le_pos; [apply Rmult_le_pos|]; lra). nra.
  Qed.
  Lemma forQ_keeps : forall xp vp B tau mui it, item_ok N it -> Q_keeps L p (velQ L p V A) xp vp B tau mui it ->
    (forall k, (k < dim)%nat -> ffin (vget (mvec tau (it_g it)) k) /\ Rabs (fval (vget (mvec tau (it_g it)) k)) <= fm) ->
    Q_keeps L p forQ xp vp B tau mui it.
  Proof.
    intros xp vp B tau mui it Hi Hv Ht c nd S Ea (H1 & H2) Hc HS. pose proof (acc_S _ _ _ (proj1 H1)) as S0. pose proof (rg_pos _ _ _ DD_rg) as D0. pose proof eps_pos as E0. pose proof (pow1 c) as P1.
    split; [exact (Hv c nd S Ea H1 Hc HS)|]. pose proof (active_w L N it Hi Ea) as Wm. destruct Hi as (Fw & Bw & _). set (w := fval (it_w it)) in *. intros k Hk. cbn [p2g_node nd_f]. unfold vadd. rewrite vgetF by auto. change (@nadd F (NumF L)) with (SFadd fprec femax).
    destruct (H2 k Hk) as (F1 & C1). destruct (Ht k Hk) as (F2 & C2). pose proof (rg_pos _ _ _ wm_rg) as W0.
    assert (Cw : fm <= DD * w). { apply Rle_trans with (DD * wm); [right; unfold DD; field; lra|]. apply Rmult_le_compat_l; lra. }
    assert (C2' : Rabs (fval (vget (mvec tau (it_g it)) k)) <= DD * w) by lra.
    pose proof (roomF (S + 1) c ltac:(lra) Hc) as Rm. assert (bpow radix2 950 <= bpow radix2 1000) by (apply bpow_le; lia). pose proof (bpow_gt_0 radix2 950). set (q := (1 + 4 * eps) ^ c) in *.
    assert (T1 : DD * w <= DD * w * q) by (assert (0 <= DD * w) by (apply Rmult_le_pos; lra); nra). assert (T2 : DD * w * q <= DD * 1 * q) by (apply Rmult_le_compat_r; [lra|]; apply Rmult_le_compat_l; lra).
    assert (T0 : 0 <= DD * S * q) by (apply Rmult_le_pos; [apply Rmult_le_pos|]; lra). assert (T3 : 0 <= DD * w * q) by (apply Rmult_le_pos; [apply Rmult_le_pos|]; lra).
    destruct (addB _ _ _ _ F1 F2 C1 C2') as (F3 & C3); [lra|]. split; auto. eapply Rle_trans; [exact C3|]. cbn [pow]. fold q.
    replace (DD * (S + w) * ((1 + 4 * eps) * q)) with ((DD * S * q + DD * w * q) * (1 + 4 * eps)) by ring. nra.
  Qed.

  (** ** The explicit update of one node, without objects and plates *)
  Variable g : R.
  Variables dt : F.
  Variable grav : TV.
  Hypothesis Hob : objects p = [].
  Hypothesis Hdt : ffin dt /\ ordinary (fval dt).
  Hypothesis Hvol : ffin (particle_volume p) /\ ordinary (fval (particle_volume p)).
  Hypothesis Hmass : ffin (particle_mass p) /\ ordinary (fval (particle_mass p)).
  Hypothesis Hg : ordinary g /\ forall k, (k < dim)%nat -> ffin (vget grav k) /\ Rabs (fval (vget grav k)) <= g.
  Lemma euler_bound : forall c nd S X U, forQ c nd S -> INR c * eps <= 1/512 -> S <= bpow radix2 44 -> rg (-300) 320 U ->
    (forall k, (k < dim)%nat -> ffin (vget (nd_v (p2g_finish_node p nd)) k) /\ Rabs (fval (vget (nd_v (p2g_finish_node p nd)) k)) <= U) ->
    exists nd', euler_node p [] dt grav X (p2g_finish_node p nd) = Ok nd' /\
      forall k, (k < dim)%nat -> ffin (vget (nd_v nd') k) /\ Rabs (fval (vget (nd_v nd') k)) <= 1001/1000 * U + 2 * (fval dt * g) + 12/10 * (fval dt * fval (particle_volume p) * DD * / fval (particle_mass p)).
  Proof.
    intros c nd S X U (Hq & H2) He HS HU Hfin. destruct Hdt as (Fdt & Rdt). destruct Hvol as (Fvo & Rvo). destruct Hmass as (Fma & Rma). destruct Hg as (Rg & Hgr). clear Hdt Hvol Hmass Hg.
    change (rg (-100) 100 (fval dt)) in Rdt. change (rg (-100) 100 (fval (particle_volume p))) in Rvo. change (rg (-100) 100 (fval (particle_mass p))) in Rma. change (rg (-100) 100 g) in Rg.
    pose proof DD_rg as RD. pose proof (rg_pos _ _ _ RD) as D0. pose proof (rg_pos _ _ _ Rdt) as dt0. pose proof (rg_pos _ _ _ Rvo) as vo0. pose proof (rg_pos _ _ _ Rma) as ma0. pose proof (rg_pos _ _ _ Rg) as g0. pose proof (rg_pos _ _ _ HU) as U0. pose proof eps_pos as E0.
    set (td := fval dt) in *. set (vo := fval (particle_volume p)) in *. set (ma := fval (particle_mass p)) in *.
    assert (Y0 : 0 < td * vo * DD * / ma) by (apply Rmult_lt_0_compat; [apply Rmult_lt_0_compat; [now apply Rmult_lt_0_compat|exact D0]|now apply Rinv_0_lt_compat]). assert (G0 : 0 < td * g) by (now apply Rmult_lt_0_compat).
    unfold euler_node. set (fin := p2g_finish_node p nd) in *. destruct (nltb (nofZ 0) (nd_m fin)) eqn:Em.
    2: { exists fin. split; [reflexivity|]. intros k Hk. destruct (Hfin k Hk) as (F1 & B1). split; auto. nra. }
    cbv zeta. unfold boundaryCollision, objects_loop. rewrite Hob. cbn [foldM bind plates_loop fold_left]. eexists. split; [reflexivity|]. intros k Hk. cbn [nd_v].
    (* the mass *)
    destruct Hq as ((Fm & Zs & Es) & _). pose proof (pos_INR c) as C0. assert (t0 : 0 <= INR c * eps) by (apply Rmult_le_pos; lra). assert (S0 : 0 <= S) by (destruct Zs as [->|Zs]; [lra|]; pose proof (rg_pos _ _ _ wm_rg); lra).
    assert (Sm : Rabs (fval (nd_m nd)) <= 513/512 * S) by (apply Rabs_le_inv in Es; apply Rabs_le; nra).
    assert (Nm : nd_m fin = SFmul fprec femax (nd_m nd) (particle_mass p)) by reflexivity.
    assert (Sp : wm <= S).
    { destruct Zs as [Z|Z]; auto. exfalso. subst S. assert (fval (nd_m nd) = 0) as Z by (rewrite Rmult_0_r, Rabs_R0 || apply Rabs_le_inv in Sm; lra). destruct (nofZ_F L 0 ltac:(lia)) as (F0 & V0).
      destruct (fmul_spec _ _ Fm Fma) as (F1 & E1); [rewrite Z, Rmult_0_l; apply one_big; rewrite Rabs_R0; lra|]. rewrite Z, Rmult_0_l, rnd_0 in E1. change (@nltb F (NumF L)) with SFltb in Em. rewrite Nm, flt_spec, E1, V0, Rlt_bool_false in Em by (auto; lra). discriminate. }
    assert (RS : rg (-86) 44 S) by (split; [apply Rle_trans with wm; auto; apply wm_rg|auto]). pose proof (rg_pos _ _ _ RS) as S1.
    assert (RSm : rg (-186) 144 (S * ma)) by exact (rg_mul _ _ _ _ _ _ RS Rma).
    assert (Hm : 98/100 * (S * ma) <= fval (nd_m fin) /\ ffin (nd_m fin)).
    { rewrite Nm. assert (RB : rg (-186) 154 (513/512 * (S * ma))) by (exact (rg_mul _ _ _ _ _ _ (rg_const (513/512) ltac:(lra)) RSm)).
      assert (Bp : Rabs (fval (nd_m nd) * fval (particle_mass p)) <= 513/512 * (S * ma)) by (fold ma; rewrite Rabs_mult, (Rabs_pos_eq ma) by lra; apply Rle_trans with (513/512 * S * ma); [apply Rmult_le_compat_r; lra|lra]).
      destruct (mul_err _ _ _ Fm Fma Bp) as (F1 & E1); [apply (rg_weak _ _ (-1000) 1000 _ RB); lia|]. split; auto. fold ma in E1.
      assert (Lm : 511/512 * (S * ma) <= fval (nd_m nd) * ma) by (apply Rle_trans with (511/512 * S * ma); [lra|]; apply Rmult_le_compat_r; [lra|]; apply Rabs_le_inv in Es; nra).
      pose proof (rg_pos _ _ _ RSm). assert (eps * (513/512 * (S * ma)) <= 1/1000 * (S * ma)) by (unfold eps; lra). apply Rabs_le_inv in E1. lra. }
    destruct Hm as (Hm & Fmf). set (m := fval (nd_m fin)) in *. pose proof (rg_pos _ _ _ RSm) as SM0. assert (m0 : 0 < m) by lra.
    (* dt * volume *)
    assert (Adt : Rabs (fval dt) <= td) by (unfold td in *; rewrite Rabs_pos_eq; lra). assert (Avo : Rabs (fval (particle_volume p)) <= vo) by (unfold vo in *; rewrite Rabs_pos_eq; lra).
    assert (RA : rg (-200) 200 (td * vo)) by exact (rg_mul _ _ _ _ _ _ Rdt Rvo). pose proof (rg_pos _ _ _ RA) as A0.
    destruct (mulB _ _ _ _ Fdt Fvo Adt Avo) as (F1 & B1); [apply (rg_weak _ _ (-1000) 1000 _ RA); lia|]. destruct (fopp_spec _ F1) as (F2 & V2).
    assert (B2 : Rabs (fval (SFopp (SFmul fprec femax dt (particle_volume p)))) <= td * vo * (1 + eps)) by (rewrite V2, Rabs_Ropp; exact B1).
    (* times the force *)
    destruct (H2 k Hk) as (Ff & Bf). pose proof (pow_lin c ltac:(lra)) as PL. set (q := (1 + 4 * eps) ^ c) in *. pose proof (pow1 c) as Q1. fold q in Q1. assert (Hq : 1 <= q <= 102/100) by lra.
    assert (Rf : rg (-206) 350 (DD * S * q)) by (exact (rg_mul _ _ _ _ _ _ (rg_mul _ _ _ _ _ _ RD RS) (rg_const q ltac:(lra)))). pose proof (rg_pos _ _ _ Rf) as f0.
    assert (Rx : rg (-406) 560 (td * vo * (1 + eps) * (DD * S * q))) by (exact (rg_mul _ _ _ _ _ _ (rg_mul _ _ _ _ _ _ RA (rg_const (1 + eps) ltac:(unfold eps; lra))) Rf)).
    destruct (mulB _ _ _ _ F2 Ff B2 Bf) as (F3 & B3); [apply (rg_weak _ _ (-1000) 1000 _ Rx); lia|].
    set (x1 := SFmul fprec femax (SFopp (SFmul fprec femax dt (particle_volume p))) (vget (nd_f nd) k)) in *.
    assert (P0 : 0 < td * vo * DD * S) by (apply Rmult_lt_0_compat; [apply Rmult_lt_0_compat; [now apply Rmult_lt_0_compat|exact D0]|exact S1]).
    assert (B3' : Rabs (fval x1) <= 103/100 * (td * vo * DD * S)).
    { eapply Rle_trans; [exact B3|]. replace (td * vo * (1 + eps) * (DD * S * q) * (1 + eps)) with (q * (1 + eps) * (1 + eps) * (td * vo * DD * S)) by ring. apply Rmult_le_compat_r; [lra|]. apply Rle_trans with (102/100 * ((1 + eps) * (1 + eps))); [|unfold eps; lra]. rewrite Rmult_assoc. apply Rmult_le_compat_r; [unfold eps|]; lra. }
    (* divided by the mass *)
    set (Y := td * vo * DD * / ma) in *.
    assert (RY : rg (-520) 600 Y) by (eapply rg_weak; [exact (rg_mul _ _ _ _ _ _ (rg_mul _ _ _ _ _ _ RA RD) (rg_inv _ _ _ Rma))|lia|lia]).
    assert (Bq : Rabs (fval x1 / m) <= 11/10 * Y).
    { unfold Rdiv. rewrite Rabs_mult, (Rabs_pos_eq (/ m)) by (apply Rlt_le, Rinv_0_lt_compat; auto). apply Rmult_le_reg_r with m; auto. rewrite Rmult_assoc, Rinv_l, Rmult_1_r by lra.
      eapply Rle_trans; [exact B3'|]. apply Rle_trans with (11/10 * Y * (98/100 * (S * ma))); [|apply Rmult_le_compat_l; [lra|exact Hm]].
      replace (11/10 * Y * (98/100 * (S * ma))) with (1078/1000 * (td * vo * DD * S)) by (unfold Y; field; lra). lra. }
    assert (RQ : rg (-520) 610 (11/10 * Y)) by (exact (rg_mul _ _ _ _ _ _ (rg_const (11/10) ltac:(lra)) RY)).
    destruct (fdiv_spec x1 (nd_m fin) F3 Fmf) as (F4 & E4); [fold m; lra|fold m; eapply big; [exact Bq|]; apply (rg_weak _ _ (-1000) 1000 _ RQ); lia|]. fold m in E4.
    pose proof (rnd_rel _ _ Bq) as Er. assert (Er' : bpow radix2 (-1000) <= 11/10 * Y) by (apply (rg_weak _ _ (-1000) 1000 _ RQ); lia). specialize (Er Er').
    assert (B4 : Rabs (fval (SFdiv fprec femax x1 (nd_m fin))) <= 111/100 * Y) by (rewrite E4; apply Rabs_le_inv in Er, Bq; assert (eps * (11/10 * Y) <= 1/1000 * Y) by (unfold eps; lra); apply Rabs_le; lra).
    (* gravity *)
    destruct (Hgr k Hk) as (Fg & Bg). assert (RG : rg (-200) 200 (td * g)) by exact (rg_mul _ _ _ _ _ _ Rdt Rg).
    destruct (mulB _ _ _ _ Fdt Fg Adt Bg) as (F5 & B5); [apply (rg_weak _ _ (-1000) 1000 _ RG); lia|].
    assert (B5' : Rabs (fval (SFmul fprec femax dt (vget grav k))) <= 101/100 * (td * g)) by (eapply Rle_trans; [exact B5|]; unfold eps; lra).
    assert (b6 : bpow radix2 700 * 64 <= bpow radix2 1000) by (change 64 with (bpow radix2 6); rewrite <- bpow_plus; apply bpow_le; lia).
    assert (Yb : Y <= bpow radix2 700) by (apply Rle_trans with (bpow radix2 600); [apply RY|apply bpow_le; lia]). assert (Gb : td * g <= bpow radix2 700) by (apply Rle_trans with (bpow radix2 200); [apply RG|apply bpow_le; lia]). assert (Ub : U <= bpow radix2 700) by (apply Rle_trans with (bpow radix2 320); [apply HU|apply bpow_le; lia]).
    destruct (addB _ _ _ _ F4 F5 B4 B5') as (F6 & B6); [lra|].
    destruct (Hfin k Hk) as (F7 & B7).
    assert (e3 : eps <= 1/100000) by (unfold eps; lra).
    assert (B6' : Rabs (fval (SFadd fprec femax (SFdiv fprec femax x1 (nd_m fin)) (SFmul fprec femax dt (vget grav k)))) <= 112/100 * Y + 102/100 * (td * g)) by (eapply Rle_trans; [exact B6|]; nra).
    destruct (addB _ _ _ _ F7 F6 B7 B6') as (F8 & B8); [lra|].
    unfold vadd, vdivs, lscale. repeat (rewrite vgetF by auto). change (nd_f fin) with (nd_f nd). split; [exact F8|]. eapply Rle_trans; [exact B8|]. nra.
  Qed.
End Force.
