(** * FloatCont: the grids of later steps in double precision. *)
From Coq Require Import ZArith Reals Lra Lia List Bool Floats.SpecFloat.
From Flocq Require Import Core.
From Verif Require Import Num NumF Tools Lin Types Remesh Transfer Spec SpecF SpecGridF ResProofs PlasticModels GridProofs FloatBase FloatGrid.
Import ListNotations.
Local Open Scope R_scope.

Section Cont.
  Variable L : Libm.
  Hint Extern 0 (Num F) => exact (NumF L) : typeclass_instances.
  Context {G : Geo F}.
  Variable p : Par F.
  Variable M : R.
  Hypothesis HM : 1 <= M <= 1048576.
  Hypothesis Hd : ffin (dx p) /\ bpow radix2 (-900) <= fval (dx p) <= bpow radix2 900.
  Hypothesis Hd1 : fval (dx p) <= 1048576.
  Let h := fval (dx p).

  (** ** What the first step remembers *)
  Record mesh_okF (m : MeshAx F) : Prop := {
    mf_min : ffin (ma_min m) /\ Rabs (fval (ma_min m)) <= M * h;
    mf_max : ffin (ma_max m) /\ Rabs (fval (ma_max m)) <= M * h;
    mf_low : ffin (ma_low m) /\ Rabs (fval (ma_low m) - (fval (ma_min m) - 2 * h)) <= eps * (M + 6) * h;
    mf_high : ffin (ma_high m) /\ Rabs (fval (ma_high m) - (fval (ma_max m) + 2 * h)) <= eps * (M + 6) * h
  }.

  (** ** The number of cells the layout moves *)
  Definition gap : R := 1/100000000 * h.
  Lemma shift_F : forall a b, ffin a -> ffin b -> Rabs (fval a) <= M * h -> Rabs (fval b) <= M * h -> fval b <= fval a ->
    exists f : Z, shift_factor p (nsub a b) = Ok f /\ (0 <= f <= 3000000)%Z /\
      IZR f <= Rmax 0 ((fval a - fval b) / h - gap + eps * (16 * (M + 6))) /\ (fval a - fval b) / h - gap - eps * (16 * (M + 6)) < IZR f + 1.
  Proof.
    intros a b Fa Fb Ba Bb Hab. pose proof (h_pos p Hd) as P. fold h in P. pose proof eps_pos as E0. apply Rabs_le_inv in Ba, Bb.
    pose proof Hd1 as Hh. fold h in Hh.
    set (D := (fval a - fval b) / h). assert (ED : fval a - fval b = D * h) by (unfold D; field; lra).
    assert (BD : 0 <= D <= 2 * M) by (split; apply Rmult_le_reg_r with h; lra).
    destruct (sub_err a b (2 * M * h) Fa Fb) as (F1 & E1); [apply Rabs_le; lra|apply (inb p Hd); lra|]. rewrite ED in E1. unfold shift_factor. cbn [nsub ndiv nmul nofQ nfloor NumF].
    set (d := SFsub fprec femax a b) in *. set (q0 := fval d / h). assert (Eq0 : fval d = q0 * h) by (unfold q0; field; lra).
    assert (D0 : Rabs (q0 - D) <= eps * (2 * M)).
    { rewrite Eq0 in E1. apply Rmult_le_reg_r with h; auto. rewrite <- (Rabs_pos_eq h) at 1 by lra. rewrite <- Rabs_mult. replace ((q0 - D) * h) with (q0 * h - D * h) by ring. lra. }
    apply Rabs_le_inv in D0. assert (s1 : eps * (2 * M) <= 1/1000000) by (unfold eps; lra).
    assert (B0 : Rabs (fval d / fval (dx p)) <= 2 * M + 1) by (fold h q0; apply Rabs_le; lra).
    destruct (fdiv_spec d (dx p) F1 (proj1 Hd)) as (F2 & E2); [fold h; lra|eapply big; [exact B0|apply inb1; lra]|].
    assert (D2 : Rabs (fval (SFdiv fprec femax d (dx p)) - q0) <= eps * (2 * M + 1)) by (rewrite E2; apply rnd_rel; [exact B0|apply inb1; lra]).
    set (q := SFdiv fprec femax d (dx p)) in *. apply Rabs_le_inv in D2.
    assert (Hc8 : ffin (fofQ 1 100000000) /\ Rabs (fval (fofQ 1 100000000) - 1/100000000) <= eps * (1/100000000)).
    { replace (fofQ 1 100000000) with (S754_finite false 6044629098073146 (-79)) by (vm_compute; reflexivity). split; [split; reflexivity|]. rewrite fval_fin. cbn [sfZ].
      replace (bpow radix2 (-79)) with (/ 604462909807314587353088) by (cbn; lra). unfold eps. apply Rabs_le. lra. }
    destruct Hc8 as (F8 & E8). apply Rabs_le_inv in E8. set (c8 := fval (fofQ 1 100000000)) in *.
    assert (B8 : 0 <= c8 <= 1/10000000) by (unfold eps in E8; lra).
    assert (Bg : Rabs (c8 * h) <= h) by (apply Rabs_le; split; nra).
    destruct (mul_err (fofQ 1 100000000) (dx p) h F8 (proj1 Hd)) as (F3 & E3); [fold c8 h; exact Bg|rewrite <- (Rmult_1_l h); apply (inb p Hd); lra|]. fold c8 h in E3.
    set (g := SFmul fprec femax (fofQ 1 100000000) (dx p)) in *. apply Rabs_le_inv in E3.
    (* a sharper bound for the gap: relative rounding *)
    assert (E3' : Rabs (fval g - c8 * h) <= eps * 1).
    { unfold g. destruct (fmul_spec (fofQ 1 100000000) (dx p) F8 (proj1 Hd)) as (_ & Q); [eapply big; [fold c8 h; exact Bg|]; destruct Hd as (_ & _ & K); fold h in K; eapply Rle_trans; [exact K|apply bpow_le; lia]|].
      rewrite Q. fold c8 h. apply rnd_rel; [apply Rabs_le; split; nra|apply (inb1 1); lra]. }
    apply Rabs_le_inv in E3'.
    assert (Eg : - (eps * 2) <= fval g - gap <= eps * 2).
    { assert (- (eps * 1) <= (c8 - 1/100000000) * h <= eps * 1).
      { assert (- (eps * (1/100000000) * 1048576) <= (c8 - 1/100000000) * h <= eps * (1/100000000) * 1048576) by (split; nra). lra. }
      unfold gap. lra. }
    clear E3 E3'.
    assert (Gb : 0 <= gap <= 1/50) by (unfold gap; lra).
    assert (s2 : eps * (2 * M + 1) <= 1/1000000) by (unfold eps; lra). assert (s3 : eps * 2 <= 1/1000000) by (unfold eps; lra).
    destruct (sub_err q g (2 * M + 2) F2 F3) as (F4 & E4); [apply Rabs_le; lra|apply inb1; lra|].
    set (r := SFsub fprec femax q g) in *. apply Rabs_le_inv in E4.
    assert (Er : - (eps * (6 * M + 6)) <= fval r - (D - gap) <= eps * (6 * M + 6)) by lra.
    assert (s4 : eps * (16 * (M + 6)) <= 1/1000000) by (unfold eps; lra). assert (s5 : eps * (6 * M + 6) <= eps * (16 * (M + 6))) by nra.
    destruct (nofZ_F L 0 ltac:(cbn; lia)) as (F0 & Z0).
    assert (Cm : ffin (@cmax F (NumF L) (nofZ 0) r) /\ fval (@cmax F (NumF L) (nofZ 0) r) = Rmax 0 (fval r)).
    { unfold cmax. cbn [nltb NumF]. rewrite flt_spec by auto. replace (fval (@nofZ F (NumF L) 0)) with 0 by (symmetry; exact Z0).
      destruct (Rlt_bool_spec 0 (fval r)); [split; auto; rewrite Rmax_right; lra|split; auto; rewrite Rmax_left by lra; exact Z0]. }
    destruct Cm as (F5 & E5). destruct (ffloor_spec _ F5) as (F6 & E6). rewrite E5 in E6. pose proof (Zfloor_bounds (Rmax 0 (fval r))) as (V1 & V2). set (f := Zfloor (Rmax 0 (fval r))) in *.
    assert (Hr : Rmax 0 (fval r) <= Rmax 0 (D - gap + eps * (16 * (M + 6)))) by (apply Rle_max_compat_l; lra).
    assert (Hr2 : Rmax 0 (D - gap + eps * (16 * (M + 6))) <= 2 * M + 2) by (apply Rmax_lub; lra).
    pose proof (Rmax_l 0 (fval r)). pose proof (Rmax_r 0 (fval r)).
    assert (Bf : (0 <= f <= 3000000)%Z).
    { split; [assert (-1 < f)%Z by (apply lt_IZR; lra); lia|]. apply le_IZR. lra. }
    exists f. split.
    - unfold to_uint. cbn [ntrunc NumF]. rewrite ftrunc_spec by exact F6. rewrite E6, Ztrunc_IZR.
      replace (uint_ok f) with true by (symmetry; unfold uint_ok; apply andb_true_intro; split; apply Z.leb_le; lia). reflexivity.
    - split; [exact Bf|]. split; lra.
  Qed.

  (** The low and the high end of the layout: at least one cell (and a bit) of room, provided that no particle has
      moved outwards by almost exactly a whole number of cells. *)
  Definition wob : R := eps * (8 * ((M + 8) * (M + 8))).
  Definition free (D : R) : Prop := forall n : Z, (1 <= n)%Z -> ~ (IZR n - wob < D < IZR n + gap + wob).
  Lemma free_shift : forall D f, 0 <= D -> free D -> (0 <= f)%Z -> D - gap - eps * (16 * (M + 6)) < IZR f + 1 -> D - 1 + wob <= IZR f.
  Proof.
    intros D f HD Fr Hf Hlt. pose proof eps_pos as E0. assert (w1 : eps * (16 * (M + 6)) <= wob) by (unfold wob; nra).
    pose proof (Zfloor_bounds D) as (V1 & V2). set (n := Zfloor D) in *.
    assert (H1 : D <= IZR n + 1 - wob).
    { assert (0 <= n)%Z by (assert (-1 < n)%Z by (apply lt_IZR; lra); lia). pose proof (Fr (n + 1)%Z ltac:(lia)) as Q. rewrite plus_IZR in Q. assert (0 <= gap + wob) by (pose proof (h_pos p Hd) as P; fold h in P; unfold gap, wob; nra). lra. }
    destruct (Z.le_gt_cases 1 n) as [Hn|Hn].
    - pose proof (Fr n Hn) as Q. assert (IZR n + gap + wob <= D) by (assert (0 < wob) by (unfold wob; nra); lra).
      assert (n < f + 1)%Z by (apply lt_IZR; rewrite plus_IZR; lra). assert (IZR n <= IZR f) by (apply IZR_le; lia). lra.
    - assert (IZR n <= 0) by (apply IZR_le; lia). apply IZR_le in Hf. lra.
  Qed.

  Lemma move_F : forall e f up, ffin e -> Rabs (fval e) <= (M + 3) * h -> (0 <= f <= 3000000)%Z -> IZR f <= 2 * M + 1 ->
    let y := if up : bool then nadd e (nmul (nofZ f) (dx p)) else nsub e (nmul (nofZ f) (dx p)) in
    ffin y /\ Rabs (fval y - (fval e + (if up then IZR f else - IZR f) * h)) <= eps * (6 * (M + 6)) * h.
  Proof.
    intros e f up Fe Be Hf Bf. cbv zeta. pose proof (h_pos p Hd) as P. fold h in P. pose proof eps_pos as E0. apply Rabs_le_inv in Be.
    destruct (nofZ_F L f ltac:(cbn; lia)) as (Fz & Ez). assert (Hf0 : 0 <= IZR f) by (apply IZR_le; lia).
    cbn [nadd nsub nmul NumF].
    destruct (mul_err (@nofZ F (NumF L) f) (dx p) ((2 * M + 1) * h) Fz (proj1 Hd)) as (F1 & E1).
    { replace (fval (@nofZ F (NumF L) f)) with (IZR f) by (symmetry; exact Ez). fold h. rewrite Rabs_pos_eq by nra. nra. }
    { apply (inb p Hd). lra. }
    replace (fval (@nofZ F (NumF L) f)) with (IZR f) in E1 by (symmetry; exact Ez). fold h in E1. set (t := SFmul fprec femax (@nofZ F (NumF L) f) (dx p)) in *. apply Rabs_le_inv in E1.
    assert (s1 : eps * ((2 * M + 1) * h) <= h / 1000000) by (unfold eps; nra).
    assert (0 <= IZR f * h <= (2 * M + 1) * h) by (split; nra).
    destruct up.
    - destruct (add_err e t ((3 * M + 5) * h) Fe F1) as (F2 & E2); [apply Rabs_le; lra|apply (inb p Hd); lra|]. split; auto. apply Rabs_le_inv in E2. apply Rabs_le. nra.
    - destruct (sub_err e t ((3 * M + 5) * h) Fe F1) as (F2 & E2); [apply Rabs_le; lra|apply (inb p Hd); lra|]. split; auto. apply Rabs_le_inv in E2. apply Rabs_le. nra.
  Qed.

  Definition room : R := eps * (24 * (M + 6)).
  Lemma cont_high_F : forall m mx, mesh_okF m -> ffin mx -> Rabs (fval mx) <= M * h -> free ((fval mx - fval (ma_max m)) / h) ->
    exists y, cont_high p m mx = Ok y /\ ffin y /\ fval mx + h + (wob - room) * h <= fval y <= (M + 3) * h.
  Proof.
    intros m mx Hm Fx Bx Fr. pose proof (h_pos p Hd) as P. fold h in P. pose proof eps_pos as E0.
    destruct (mf_max m Hm) as (Fm & Bm). destruct (mf_high m Hm) as (Fh & Eh). apply Rabs_le_inv in Eh. pose proof Bm as Bm'. pose proof Bx as Bx'. apply Rabs_le_inv in Bm', Bx'.
    assert (s1 : eps * (M + 6) * h <= h / 1000000) by (unfold eps; nra). assert (s2 : eps * (6 * (M + 6)) * h <= h / 1000000) by (unfold eps; nra). assert (s3 : eps * (16 * (M + 6)) <= 1 / 1000000) by (unfold eps; lra).
    assert (s4 : wob <= 1/100) by (unfold wob, eps; nra). assert (s5 : 0 < room) by (unfold room; nra).
    assert (Hg : 0 <= gap) by (unfold gap; lra).
    assert (Bh : Rabs (fval (ma_high m)) <= (M + 3) * h) by (apply Rabs_le; lra).
    unfold cont_high. change (nltb mx (ma_max m)) with (SFltb mx (ma_max m)). rewrite flt_spec by auto. destruct (Rlt_bool_spec (fval mx) (fval (ma_max m))) as [C|C].
    - destruct (shift_F (ma_max m) mx Fm Fx Bm Bx ltac:(lra)) as (f & Ef & Bf & U1 & _). rewrite Ef. cbn [bind].
      set (D := (fval (ma_max m) - fval mx) / h) in *. assert (ED : fval (ma_max m) - fval mx = D * h) by (unfold D; field; lra). assert (BD : 0 <= D <= 2 * M) by (split; apply Rmult_le_reg_r with h; lra).
      assert (U2 : IZR f <= D + eps * (16 * (M + 6))) by (eapply Rle_trans; [exact U1|]; apply Rmax_lub; nra).
      assert (Hf0 : 0 <= IZR f) by (apply IZR_le; lia).
      destruct (move_F (ma_high m) f false Fh Bh Bf ltac:(lra)) as (Fy & Ey). eexists. split; [reflexivity|]. split; [exact Fy|]. apply Rabs_le_inv in Ey.
      assert (0 <= IZR f * h <= D * h + eps * (16 * (M + 6)) * h) by (split; nra).
      assert (wob * h <= h / 100) by nra. assert (eps * (16 * (M + 6)) * h <= h / 1000000) by nra. assert (0 <= room * h) by nra. split; nra.
    - destruct (shift_F mx (ma_max m) Fx Fm Bx Bm ltac:(lra)) as (f & Ef & Bf & U1 & U2). rewrite Ef. cbn [bind].
      set (D := (fval mx - fval (ma_max m)) / h) in *. assert (ED : fval mx - fval (ma_max m) = D * h) by (unfold D; field; lra). assert (BD : 0 <= D <= 2 * M) by (split; apply Rmult_le_reg_r with h; lra).
      assert (U3 : IZR f <= D + eps * (16 * (M + 6))) by (eapply Rle_trans; [exact U1|]; apply Rmax_lub; nra).
      pose proof (free_shift D f (proj1 BD) Fr (proj1 Bf) U2) as U4.
      destruct (move_F (ma_high m) f true Fh Bh Bf ltac:(lra)) as (Fy & Ey). eexists. split; [reflexivity|]. split; [exact Fy|]. apply Rabs_le_inv in Ey.
      assert (D * h - h + wob * h <= IZR f * h <= D * h + eps * (16 * (M + 6)) * h) by (split; nra).
      assert (eps * (16 * (M + 6)) * h <= h / 1000000) by nra.
      assert (room * h = eps * (24 * (M + 6)) * h) by (unfold room; ring). split; nra.
  Qed.
  Lemma cont_low_F : forall m mn, mesh_okF m -> ffin mn -> Rabs (fval mn) <= M * h -> free ((fval (ma_min m) - fval mn) / h) ->
    exists y, cont_low p m mn = Ok y /\ ffin y /\ - ((M + 3) * h) <= fval y <= fval mn - h - (wob - room) * h.
  Proof.
    intros m mn Hm Fx Bx Fr. pose proof (h_pos p Hd) as P. fold h in P. pose proof eps_pos as E0.
    destruct (mf_min m Hm) as (Fm & Bm). destruct (mf_low m Hm) as (Fh & Eh). apply Rabs_le_inv in Eh. pose proof Bm as Bm'. pose proof Bx as Bx'. apply Rabs_le_inv in Bm', Bx'.
    assert (s1 : eps * (M + 6) * h <= h / 1000000) by (unfold eps; nra). assert (s2 : eps * (6 * (M + 6)) * h <= h / 1000000) by (unfold eps; nra). assert (s3 : eps * (16 * (M + 6)) <= 1 / 1000000) by (unfold eps; lra).
    assert (s4 : wob <= 1/100) by (unfold wob, eps; nra). assert (s5 : 0 < room) by (unfold room; nra).
    assert (Hg : 0 <= gap) by (unfold gap; lra).
    assert (Bh : Rabs (fval (ma_low m)) <= (M + 3) * h) by (apply Rabs_le; lra).
    unfold cont_low. change (nltb (ma_min m) mn) with (SFltb (ma_min m) mn). rewrite flt_spec by auto. destruct (Rlt_bool_spec (fval (ma_min m)) (fval mn)) as [C|C].
    - destruct (shift_F mn (ma_min m) Fx Fm Bx Bm ltac:(lra)) as (f & Ef & Bf & U1 & _). rewrite Ef. cbn [bind].
      set (D := (fval mn - fval (ma_min m)) / h) in *. assert (ED : fval mn - fval (ma_min m) = D * h) by (unfold D; field; lra). assert (BD : 0 <= D <= 2 * M) by (split; apply Rmult_le_reg_r with h; lra).
      assert (U2 : IZR f <= D + eps * (16 * (M + 6))) by (eapply Rle_trans; [exact U1|]; apply Rmax_lub; nra).
      assert (Hf0 : 0 <= IZR f) by (apply IZR_le; lia).
      destruct (move_F (ma_low m) f true Fh Bh Bf ltac:(lra)) as (Fy & Ey). eexists. split; [reflexivity|]. split; [exact Fy|]. apply Rabs_le_inv in Ey.
      assert (0 <= IZR f * h <= D * h + eps * (16 * (M + 6)) * h) by (split; nra).
      assert (wob * h <= h / 100) by nra. assert (eps * (16 * (M + 6)) * h <= h / 1000000) by nra. assert (0 <= room * h) by nra. split; nra.
    - destruct (shift_F (ma_min m) mn Fm Fx Bm Bx ltac:(lra)) as (f & Ef & Bf & U1 & U2). rewrite Ef. cbn [bind].
      set (D := (fval (ma_min m) - fval mn) / h) in *. assert (ED : fval (ma_min m) - fval mn = D * h) by (unfold D; field; lra). assert (BD : 0 <= D <= 2 * M) by (split; apply Rmult_le_reg_r with h; lra).
      assert (U3 : IZR f <= D + eps * (16 * (M + 6))) by (eapply Rle_trans; [exact U1|]; apply Rmax_lub; nra).
      pose proof (free_shift D f (proj1 BD) Fr (proj1 Bf) U2) as U4.
      destruct (move_F (ma_low m) f false Fh Bh Bf ltac:(lra)) as (Fy & Ey). eexists. split; [reflexivity|]. split; [exact Fy|]. apply Rabs_le_inv in Ey.
      assert (D * h - h + wob * h <= IZR f * h <= D * h + eps * (16 * (M + 6)) * h) by (split; nra).
      assert (eps * (16 * (M + 6)) * h <= h / 1000000) by nra.
      assert (room * h = eps * (24 * (M + 6)) * h) by (unfold room; ring). split; nra.
  Qed.
End Cont.

(** ** One axis of a later grid *)
Section ContAxis.
  Variable L : Libm.
  Hint Extern 0 (Num F) => exact (NumF L) : typeclass_instances.
  Context {G : Geo F}.
  Variable p : Par F.
  Variable M : R.
  Variable xs : list TV.
  Hypothesis Hc : cloud_okF L M p xs.
  Hypothesis Hd1 : fval (dx p) <= 1048576.
  Let h := fval (dx p).
  Let HM := cl_M L M p xs Hc.
  Let Hd := cl_dx L M p xs Hc.

  Lemma cont_axis_F : forall af k m a, (k < dim)%nat -> mesh_okF p M m ->
    (forall x, In x xs -> free p M ((fval (ma_min m) - fval (vget x k)) / h) /\ free p M ((fval (vget x k) - fval (ma_max m)) / h)) ->
    remeshCont_axis af p xs m k = Ok a -> init_ax p M xs k a.
  Proof.
    intros af k m a Hk Hm Fr H. unfold remeshCont_axis in H. apply bind_Ok in H. destruct H as (mx & E1 & H). apply bind_Ok in H. destruct H as (mn & E2 & H).
    destruct (extremes L p M xs Hc k Hk mx mn E1 E2) as (F1 & F2 & B1 & B2 & Hle & Hx). fold h in B1, B2.
    assert (I1 : exists x, In x xs /\ vget x k = mx).
    { destruct (max_F L _ _ (fun y Hy => match proj1 (in_map_iff _ _ _) Hy with ex_intro _ x (conj Ex Ix) => eq_ind _ ffin (proj1 (cl_xs L M p xs Hc x k Ix Hk)) _ Ex end) E1) as (I & _). apply in_map_iff in I. destruct I as (x & ? & ?). eauto. }
    assert (I2 : exists x, In x xs /\ vget x k = mn).
    { destruct (min_F L _ _ (fun y Hy => match proj1 (in_map_iff _ _ _) Hy with ex_intro _ x (conj Ex Ix) => eq_ind _ ffin (proj1 (cl_xs L M p xs Hc x k Ix Hk)) _ Ex end) E2) as (I & _). apply in_map_iff in I. destruct I as (x & ? & ?). eauto. }
    destruct I1 as (x1 & Ix1 & Ex1). destruct I2 as (x2 & Ix2 & Ex2). destruct (Fr x1 Ix1) as (_ & Fr1). destruct (Fr x2 Ix2) as (Fr2 & _). rewrite Ex1 in Fr1. rewrite Ex2 in Fr2.
    destruct (cont_high_F L p M HM Hd Hd1 m mx Hm F1 B1 Fr1) as (hi & Eh & Fh & Bh). destruct (cont_low_F L p M HM Hd Hd1 m mn Hm F2 B2 Fr2) as (low & El & Fl & Bl). fold h in Bh, Bl.
    rewrite Eh in H. cbn [bind] in H. rewrite El in H. cbn [bind] in H. clear Eh El.
    pose proof (h_pos p Hd) as P. fold h in P. pose proof eps_pos as E0. apply Rabs_le_inv in B1, B2.
    assert (w1 : wob M <= 1/100) by (unfold wob, eps; nra). assert (w0 : eps * (4 * M * M + 82 * M + 346) < wob M) by (unfold wob; nra).
    assert (r1 : room M = eps * (24 * (M + 6))) by reflexivity. assert (r2 : eps * (24 * (M + 6)) <= 1/1000000) by (unfold eps; lra).
    assert (w2 : 0 <= wob M - room M <= 1/100) by (rewrite r1; split; nra).
    assert (w3 : 0 <= (wob M - room M) * h <= h / 100) by (split; nra).
    destruct (add_err hi (dx p) ((M + 4) * h) Fh (proj1 Hd)) as (Fs & Es); [fold h; apply Rabs_le; lra|apply (inb p Hd); lra|]. fold h in Es. apply Rabs_le_inv in Es.
    change (SFadd fprec femax hi (dx p)) with (nadd hi (dx p)) in Fs, Es. set (stop := nadd hi (dx p)) in *.
    assert (e1 : eps * ((M + 4) * h) <= h / 1000000) by (unfold eps; nra). assert (e2 : eps * ((M + 6) * h) <= h / 1000000) by (unfold eps; nra).
    unfold mk_axis in H. apply bind_Ok in H. destruct H as (co & Hco & Ha). apply bind_Ok in Ha. destruct Ha as (c & Hr & Ha). apply Ok_inj in Ha. subst a.
    unfold arange in Hco. destruct (arange_loop af low stop (dx p)) as [l|] eqn:El0; [|discriminate]. apply Ok_inj in Hco. subst l.
    destruct (arange_F L af low stop (dx p) ((M + 6) * h) co Fl Fs (proj1 Hd) P) as (K1 & K2); auto; fold h; try lra; [apply (inb p Hd); lra|].
    assert (Hc0 : nth_error co 0 = Some c) by (destruct co as [|c' r]; cbn in Hr; [discriminate|apply Ok_inj in Hr; now subst c']).
    assert (c = low) as -> by (destruct co as [|c' r]; [discriminate|]; destruct af; cbn [arange_loop] in El0; destruct (nltb low stop); try discriminate; destruct (arange_loop af (nadd low (dx p)) stop (dx p)); try discriminate; injection El0; injection Hc0; congruence).
    fold h in K1, K2. set (n := INR (length co)) in *.
    assert (Hn : n <= 4 * M + 25).
    { unfold n. destruct (length co) as [|j] eqn:Lc; [cbn; lra|]. destruct (nth_error co j) as [y|] eqn:Ey; [|apply nth_error_None in Ey; lia].
      destruct (K1 j y Ey) as (_ & A1 & A2). apply Rabs_le_inv in A1. rewrite S_INR. pose proof (pos_INR j). set (J := INR j) in *.
      assert (J * (h / 2) <= 2 * (M + 4) * h). { assert (J * h - J * (h / 1000000) <= fval stop - fval low) by nra. nra. }
      assert (J * / 2 <= 2 * (M + 4)) by (apply Rmult_le_reg_r with h; lra). lra. }
    assert (Hdr : n * (eps * (M + 6)) <= eps * (4 * M * M + 49 * M + 150)).
    { apply Rle_trans with ((4 * M + 25) * (eps * (M + 6))); [apply Rmult_le_compat_r; [nra|auto]|]. lra. }
    constructor; cbn [ax_co ax_c].
    - auto.
    - intros i y Hy. destruct (K1 i y Hy) as (A1 & A2 & A3). fold h. split; auto. split; [apply Rabs_le; lra|auto].
    - exact Hn.
    - intros x Hin. destruct (Hx x Hin) as (X1 & X2). fold n h.
      set (t := (fval (vget x k) - fval low) / h). assert (Et : fval (vget x k) - fval low = t * h) by (unfold t; field; lra). split.
      + apply Rmult_le_reg_r with h; auto. assert (eps * (8 * (M + 6)) * h <= (wob M - room M) * h) by (apply Rmult_le_compat_r; [lra|]; rewrite r1; nra). lra.
      + assert (Q : (t + 2 + (wob M - room M) - eps * (M + 4)) * h <= (n + n * (eps * (M + 6))) * h) by lra.
        apply Rmult_le_reg_r in Q; auto. rewrite r1 in Q. lra.
  Qed.

  Lemma cont_axis_ends : forall k m, (k < dim)%nat -> xs <> [] -> mesh_okF p M m ->
    (forall x, In x xs -> free p M ((fval (ma_min m) - fval (vget x k)) / h) /\ free p M ((fval (vget x k) - fval (ma_max m)) / h)) ->
    exists n0, forall af, (n0 <= af)%nat -> exists a, remeshCont_axis af p xs m k = Ok a.
  Proof.
    intros k m Hk Hne Hm Fr. 
    destruct (max_elem (map (fun v => vget v k) xs)) as [mx| |] eqn:E1; [|destruct xs; [congruence|discriminate]|destruct xs; discriminate].
    destruct (min_elem (map (fun v => vget v k) xs)) as [mn| |] eqn:E2; [|destruct xs; [congruence|discriminate]|destruct xs; discriminate].
    destruct (extremes L p M xs Hc k Hk mx mn E1 E2) as (F1 & F2 & B1 & B2 & Hle & Hx). fold h in B1, B2.
    assert (I1 : exists x, In x xs /\ vget x k = mx).
    { destruct (max_F L _ _ (fun y Hy => match proj1 (in_map_iff _ _ _) Hy with ex_intro _ x (conj Ex Ix) => eq_ind _ ffin (proj1 (cl_xs L M p xs Hc x k Ix Hk)) _ Ex end) E1) as (I & _). apply in_map_iff in I. destruct I as (x & ? & ?). eauto. }
    assert (I2 : exists x, In x xs /\ vget x k = mn).
    { destruct (min_F L _ _ (fun y Hy => match proj1 (in_map_iff _ _ _) Hy with ex_intro _ x (conj Ex Ix) => eq_ind _ ffin (proj1 (cl_xs L M p xs Hc x k Ix Hk)) _ Ex end) E2) as (I & _). apply in_map_iff in I. destruct I as (x & ? & ?). eauto. }
    destruct I1 as (x1 & Ix1 & Ex1). destruct I2 as (x2 & Ix2 & Ex2). destruct (Fr x1 Ix1) as (_ & Fr1). destruct (Fr x2 Ix2) as (Fr2 & _). rewrite Ex1 in Fr1. rewrite Ex2 in Fr2.
    destruct (cont_high_F L p M HM Hd Hd1 m mx Hm F1 B1 Fr1) as (hi & Eh & Fh & Bh). destruct (cont_low_F L p M HM Hd Hd1 m mn Hm F2 B2 Fr2) as (low & El & Fl & Bl). fold h in Bh, Bl.
    pose proof (h_pos p Hd) as P. fold h in P. pose proof eps_pos as E0. apply Rabs_le_inv in B1, B2.
    assert (w1 : wob M <= 1/100) by (unfold wob, eps; nra). assert (w0 : eps * (4 * M * M + 82 * M + 346) < wob M) by (unfold wob; nra).
    assert (r1 : room M = eps * (24 * (M + 6))) by reflexivity. assert (r2 : eps * (24 * (M + 6)) <= 1/1000000) by (unfold eps; lra).
    assert (w2 : 0 <= wob M - room M <= 1/100) by (rewrite r1; split; nra).
    assert (w3 : 0 <= (wob M - room M) * h <= h / 100) by (split; nra).
    destruct (add_err hi (dx p) ((M + 4) * h) Fh (proj1 Hd)) as (Fs & Es); [fold h; apply Rabs_le; lra|apply (inb p Hd); lra|]. fold h in Es. apply Rabs_le_inv in Es.
    change (SFadd fprec femax hi (dx p)) with (nadd hi (dx p)) in Fs, Es. set (stop := nadd hi (dx p)) in *.
    assert (e1 : eps * ((M + 4) * h) <= h / 1000000) by (unfold eps; nra). assert (e2 : eps * ((M + 6) * h) <= h / 1000000) by (unfold eps; nra).
    exists (Z.to_nat (up (4 * M + 40))). intros af Haf.
    assert (Hup : 4 * M + 40 <= INR af).
    { destruct (archimed (4 * M + 40)) as (U & _). apply Rle_trans with (INR (Z.to_nat (up (4 * M + 40)))); [|now apply le_INR].
      rewrite INR_IZR_INZ, Z2Nat.id; [lra|]. apply le_IZR. lra. }
    destruct (arange_ends L af low stop (dx p) ((M + 6) * h) Fl Fs (proj1 Hd) P) as (l & El0); fold h; try lra; [apply (inb p Hd); lra|nra|].
    unfold remeshCont_axis. rewrite E1. cbn [bind]. rewrite E2. cbn [bind]. rewrite Eh. cbn [bind]. rewrite El. cbn [bind]. unfold mk_axis, arange. fold stop. rewrite El0. cbn [bind].
    destruct l as [|c r]; [|cbn; eauto]. exfalso. destruct af; cbn [arange_loop] in El0; cbn [nltb NumF] in El0; rewrite flt_spec in El0 by auto; (destruct (Rlt_bool_spec (fval low) (fval stop)); [|lra]); [discriminate|].
    destruct (arange_loop af (nadd low (dx p)) stop (dx p)); discriminate.
  Qed.
End ContAxis.
