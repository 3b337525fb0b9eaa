(** * FloatPbc: the grid of a periodic simulation, the wrap and the images in double precision. *)
From Coq Require Import ZArith Reals Lra Lia List Bool Floats.SpecFloat.
From Flocq Require Import Core BinarySingleNaN Sterbenz Plus_error.
From Verif Require Import Num NumF Tools Lin Types Remesh Transfer Pbc Spec SpecF SpecGridF ResProofs PlasticModels GridProofs RemeshProofs FloatBase FloatGrid FloatKernel FloatCont.
Import ListNotations.
Local Open Scope R_scope.

Section MkAxis.
  Variable L : Libm.
  Hint Extern 0 (Num F) => exact (NumF L) : typeclass_instances.
  Context {G : Geo F}.
  Variable p : Par F.
  Variable M : R.
  Variable xs : list TV.
  Hypothesis Hc : cloud_okF L M p xs.
  Let h := fval (dx p).
  Let HM := cl_M L M p xs Hc.
  Let Hd := cl_dx L M p xs Hc.

  Lemma mk_axis_F : forall af k low stop a, (k < dim)%nat -> ffin low -> ffin stop -> - (M + 4) * h <= fval low -> fval stop <= (M + 5) * h -> 
    (forall x, In x xs -> (1 + eps * (8 * (M + 6))) * h <= fval (vget x k) - fval low /\ (2 + eps * (4 * M * M + 58 * M + 200)) * h <= fval stop - fval (vget x k)) ->
    mk_axis af low stop (dx p) = Ok a -> init_ax p M xs k a.
  Proof.
    intros af k low stop a Hk Fl Fs Bl Bs Hx H. pose proof (h_pos p Hd) as P. fold h in P. pose proof eps_pos as E0.
    assert (e2 : eps * ((M + 6) * h) <= h / 1000000) by (unfold eps; nra).
    unfold mk_axis in H. apply bind_Ok in H. destruct H as (co & Hco & Ha). apply bind_Ok in Ha. destruct Ha as (c & Hr & Ha). apply Ok_inj in Ha. subst a.
    unfold arange in Hco. destruct (arange_loop af low stop (dx p)) as [l|] eqn:El0; [|discriminate]. apply Ok_inj in Hco. subst l.
    destruct (arange_F L af low stop (dx p) ((M + 6) * h) co Fl Fs (proj1 Hd) P) as (K1 & K2); auto; fold h; try lra; [apply (inb p Hd); lra|].
    assert (Hc0 : nth_error co 0 = Some c) by (destruct co as [|c' r]; cbn in Hr; [discriminate|apply Ok_inj in Hr; now subst c']).
    assert (c = low) as -> by (destruct co as [|c' r]; [discriminate|]; destruct af; cbn [arange_loop] in El0; destruct (nltb low stop); try discriminate; destruct (arange_loop af (nadd low (dx p)) stop (dx p)); try discriminate; injection El0; injection Hc0; congruence).
    fold h in K1, K2. set (n := INR (length co)) in *.
    assert (Hn : n <= 4 * M + 25).
    { unfold n. destruct (length co) as [|j] eqn:Lc; [cbn; lra|]. destruct (nth_error co j) as [y|] eqn:Ey; [|apply nth_error_None in Ey; lia].
      destruct (K1 j y Ey) as (_ & A1 & A2). apply Rabs_le_inv in A1. rewrite S_INR. pose proof (pos_INR j). set (J := INR j) in *.
      assert (J * (h / 2) <= (2 * M + 9) * h). { assert (J * h - J * (h / 1000000) <= fval stop - fval low) by nra. nra. }
      assert (J * / 2 <= 2 * M + 9) by (apply Rmult_le_reg_r with h; lra). lra. }
    assert (Hdr : n * (eps * (M + 6)) <= eps * (4 * M * M + 49 * M + 150)).
    { apply Rle_trans with ((4 * M + 25) * (eps * (M + 6))); [apply Rmult_le_compat_r; [nra|auto]|]. lra. }
    constructor; cbn [ax_co ax_c].
    - auto.
    - intros i y Hy. destruct (K1 i y Hy) as (A1 & A2 & A3). fold h. split; auto. split; [apply Rabs_le; lra|auto].
    - exact Hn.
    - intros x Hin. destruct (Hx x Hin) as (X1 & X2). fold n h.
      set (t := (fval (vget x k) - fval low) / h). assert (Et : fval (vget x k) - fval low = t * h) by (unfold t; field; lra). split.
      + apply Rmult_le_reg_r with h; auto. lra.
      + assert (Q : (t + 2 + eps * (4 * M * M + 58 * M + 200)) * h <= (n + n * (eps * (M + 6))) * h) by lra.
        apply Rmult_le_reg_r in Q; auto. nra.
  Qed.
  Lemma mk_axis_ends : forall low stop, ffin low -> ffin stop -> - (M + 4) * h <= fval low -> fval stop <= (M + 5) * h -> fval low < fval stop ->
    exists n0, forall af, (n0 <= af)%nat -> exists a, mk_axis af low stop (dx p) = Ok a.
  Proof.
    intros low stop Fl Fs Bl Bs Hls. pose proof (h_pos p Hd) as P. fold h in P. pose proof eps_pos as E0.
    assert (e2 : eps * ((M + 6) * h) <= h / 1000000) by (unfold eps; nra).
    exists (Z.to_nat (up (4 * M + 40))). intros af Haf.
    assert (Hup : 4 * M + 40 <= INR af).
    { destruct (archimed (4 * M + 40)) as (U & _). apply Rle_trans with (INR (Z.to_nat (up (4 * M + 40)))); [|now apply le_INR].
      rewrite INR_IZR_INZ, Z2Nat.id; [lra|]. apply le_IZR. lra. }
    destruct (arange_ends L af low stop (dx p) ((M + 6) * h) Fl Fs (proj1 Hd) P) as (l & El0); fold h; try lra; [apply (inb p Hd); lra|nra|].
    unfold mk_axis, arange. rewrite El0. cbn [bind].
    destruct l as [|c r]; [|cbn; eauto]. exfalso. destruct af; cbn [arange_loop] in El0; cbn [nltb NumF] in El0; rewrite flt_spec in El0 by auto; (destruct (Rlt_bool_spec (fval low) (fval stop)); [|lra]); [discriminate|].
    destruct (arange_loop af (nadd low (dx p)) stop (dx p)); discriminate.
  Qed.

  Lemma fopp_spec : forall x, ffin x -> ffin (SFopp x) /\ fval (SFopp x) = - fval x.
  Proof.
    intros [s|s| |s m e] (V & Fi); try discriminate.
    - split; [split; auto|]. unfold fval. cbn. lra.
    - split; [split; auto|]. cbn [SFopp]. rewrite !fval_fin. destruct s; cbn [negb sfZ]; rewrite ?opp_IZR; try lra.
      + replace (IZR (Zpos m)) with (- IZR (Zneg m)) by (rewrite <- opp_IZR; reflexivity). ring.
      + replace (IZR (Zneg m)) with (- IZR (Zpos m)) by (rewrite <- opp_IZR; reflexivity). ring.
  Qed.
  Lemma nopp_F : forall x, ffin x -> ffin (nopp x) /\ fval (nopp x) = - fval x.
  Proof. exact fopp_spec. Qed.

  Lemma fixed_low : ffin (nmul (nopp (dx p)) (nofZ 5)) /\ Rabs (fval (nmul (nopp (dx p)) (nofZ 5)) + 5 * h) <= eps * (5 * h).
  Proof.
    pose proof (h_pos p Hd) as P. fold h in P. destruct (nofZ_F L 5 ltac:(cbn; lia)) as (Fz & Ez). destruct (nopp_F (dx p) (proj1 Hd)) as (Fo & Eo). fold h in Eo.
    destruct (mul_err (nopp (dx p)) (@nofZ F (NumF L) 5) (5 * h) Fo Fz) as (F1 & E1); rewrite ?Ez, ?Eo.
    - apply Rabs_le. lra.
    - apply (inb p Hd). lra.
    - rewrite Ez, Eo in E1. split; [exact F1|]. eapply Rle_trans; [|exact E1]. right. cbn [nmul NumF]. f_equal. ring.
  Qed.
  Lemma fixed_stop : forall l, box_sideF M p l -> ffin (nadd l (nmul (nofZ 6) (dx p))) /\ Rabs (fval (nadd l (nmul (nofZ 6) (dx p))) - (fval l + 6 * h)) <= eps * ((M + 11) * h).
  Proof.
    intros l (Fl & Bl). fold h in Bl. pose proof (h_pos p Hd) as P. fold h in P. pose proof eps_pos as E0. destruct (nofZ_F L 6 ltac:(cbn; lia)) as (Fz & Ez).
    destruct (mul_err (@nofZ F (NumF L) 6) (dx p) (6 * h) Fz (proj1 Hd)) as (F1 & E1); rewrite ?Ez; fold h.
    - apply Rabs_le. lra.
    - apply (inb p Hd). lra.
    - rewrite Ez in E1. fold h in E1. change (SFmul fprec femax (@nofZ F (NumF L) 6) (dx p)) with (nmul (@nofZ F (NumF L) 6) (dx p)) in F1, E1. set (t := nmul (@nofZ F (NumF L) 6) (dx p)) in *. apply Rabs_le_inv in E1.
      assert (e : eps * (6 * h) <= h / 1000) by (unfold eps; lra).
      destruct (add_err l t ((M + 5) * h) Fl F1) as (F2 & E2); [apply Rabs_le; lra|apply (inb p Hd); lra|]. split; [exact F2|]. apply Rabs_le_inv in E2. apply Rabs_le. change (nadd l t) with (SFadd fprec femax l t). lra.
  Qed.

  Lemma fixed_axis_F : forall af k a, (k < dim)%nat -> (dim <= 3)%nat -> box_okF M p -> (forall x, In x xs -> near_boxF M p x) -> remeshFixed_axis af p 4 k = Ok a -> init_ax p M xs k a.
  Proof.
    intros af k a Hk H3 (S0 & S1 & S2) Hx H. pose proof (h_pos p Hd) as P. fold h in P. pose proof eps_pos as E0.
    assert (W : bpow radix2 (-49) * (M + 8) ^ 2 = wob M) by (unfold wob; rewrite eps_bpow; replace (bpow radix2 (-49)) with (8 * bpow radix2 (-52)) by (cbn; lra); ring).
    assert (w0 : eps * (4 * M * M + 59 * M + 230) + eps * (8 * (M + 6)) <= wob M) by (unfold wob; nra).
    assert (w1 : (eps * (4 * M * M + 59 * M + 230) + eps * (8 * (M + 6))) * h <= wob M * h) by (apply Rmult_le_compat_r; lra).
    assert (z0 : 0 <= eps * (4 * M * M)) by (apply Rmult_le_pos; [lra|nra]).
    assert (z1 : 0 <= eps * (4 * M * M) * h) by (apply Rmult_le_pos; lra). assert (z2 : 0 <= eps * M * h) by (repeat apply Rmult_le_pos; lra). assert (z3 : 0 <= eps * h) by (apply Rmult_le_pos; lra).
    assert (e5 : eps * (5 * h) <= h / 1000) by (unfold eps; lra). assert (e6 : eps * ((M + 11) * h) <= h / 1000) by (unfold eps; nra).
    destruct fixed_low as (Fl & El). apply Rabs_le_inv in El.
    assert (X : forall l x, In x xs -> box_sideF M p l -> - (4 - wob M) * h <= fval (vget x k) <= fval l + (4 - wob M) * h -> 
      (1 + eps * (8 * (M + 6))) * h <= fval (vget x k) - fval (nmul (nopp (dx p)) (nofZ 5)) /\ (2 + eps * (4 * M * M + 58 * M + 200)) * h <= fval (nadd l (nmul (nofZ 6) (dx p))) - fval (vget x k)).
    { intros l x Ix Sl Bx. destruct (fixed_stop l Sl) as (Fs & Es). apply Rabs_le_inv in Es. split; lra. }
    assert (Fi : forall l, box_sideF M p l -> (forall x, In x xs -> - (4 - wob M) * h <= fval (vget x k) <= fval l + (4 - wob M) * h) -> mk_axis af (nmul (nopp (dx p)) (nofZ 5)) (nadd l (nmul (nofZ 6) (dx p))) (dx p) = Ok a -> init_ax p M xs k a).
    { intros l Sl Bx Hm. destruct (fixed_stop l Sl) as (Fs & Es). apply Rabs_le_inv in Es. destruct Sl as (Fll & Bll). fold h in Bll. eapply mk_axis_F; [exact Hk|exact Fl|exact Fs| | |intros x Ix; apply X; auto; split; auto|exact Hm]; lra. }
    destruct k as [|[|[|k]]]; [| | |lia]; unfold remeshFixed_axis in H; change (1 + 4)%Z with 5%Z in H; change (2 + 4)%Z with 6%Z in H.
    - apply (Fi (Lx p)); auto. intros x Ix. destruct (Hx x Ix) as (N0 & _). rewrite W in N0. exact N0.
    - destruct (fixed_stop (Ly p) S1) as (Fs & Es). apply Rabs_le_inv in Es. destruct (nopp_F (dx p) (proj1 Hd)) as (Fo & Eo). fold h in Eo. destruct S1 as (F1 & B1). fold h in B1.
      eapply mk_axis_F; [exact Hk|exact Fo|exact Fs| | | |exact H]; rewrite ?Eo; try lra.
      intros x Ix. destruct (Hx x Ix) as (_ & N1 & _). rewrite W in N1. fold h in N1. split; lra.
    - assert (D : dim = 3%nat) by lia. apply (Fi (Lz p)); auto. intros x Ix. destruct (Hx x Ix) as (_ & _ & N2). rewrite W in N2. exact (N2 D).
  Qed.
  Lemma fixed_axis_ends : forall k, (k < dim)%nat -> (dim <= 3)%nat -> box_okF M p -> exists n0, forall af, (n0 <= af)%nat -> exists a, remeshFixed_axis af p 4 k = Ok a.
  Proof.
    intros k Hk H3 (S0 & S1 & S2). pose proof (h_pos p Hd) as P. fold h in P. pose proof eps_pos as E0.
    assert (e5 : eps * (5 * h) <= h / 1000) by (unfold eps; lra). assert (e6 : eps * ((M + 11) * h) <= h / 1000) by (unfold eps; nra).
    destruct fixed_low as (Fl & El). apply Rabs_le_inv in El.
    assert (Fi : forall l, box_sideF M p l -> exists n0, forall af, (n0 <= af)%nat -> exists a, mk_axis af (nmul (nopp (dx p)) (nofZ 5)) (nadd l (nmul (nofZ 6) (dx p))) (dx p) = Ok a).
    { intros l Sl. destruct (fixed_stop l Sl) as (Fs & Es). apply Rabs_le_inv in Es. destruct Sl as (Fll & Bll). fold h in Bll. apply mk_axis_ends; auto; lra. }
    destruct k as [|[|[|k]]]; [| | |lia]; unfold remeshFixed_axis; change (1 + 4)%Z with 5%Z; change (2 + 4)%Z with 6%Z; auto.
    - destruct (fixed_stop (Ly p) S1) as (Fs & Es). apply Rabs_le_inv in Es. destruct (nopp_F (dx p) (proj1 Hd)) as (Fo & Eo). fold h in Eo. destruct S1 as (F1 & B1). fold h in B1.
      assert (0 < M * h) by (apply Rmult_lt_0_compat; lra). apply mk_axis_ends; auto; rewrite ?Eo; lra.
    - apply Fi, S2. lia.
  Qed.
End MkAxis.

(** ** Wrap and images *)
Lemma vset0F : forall (G : Geo F), two_or_threeF G -> forall (x : TV) a, vget (vset x 0 a) 0 = a /\ forall k, (0 < k < dim)%nat -> vget (vset x 0 a) k = vget x k.
Proof.
  intros G [-> | ->] [] a; (split; [reflexivity|]); intros [|[|[|k]]] Hk; cbn in Hk; try lia; reflexivity.
Qed.
Lemma dimF : forall (G : Geo F), two_or_threeF G -> dim = 2%nat \/ dim = 3%nat.
Proof. intros G [-> | ->]; auto. Qed.
Lemma fin_format : forall x, ffin x -> generic_format radix2 fx (fval x).
Proof. intros x H. rewrite <- (rnd_id x H). apply generic_format_round; [apply (fexp_correct 53 1024); reflexivity|apply valid_rnd_N]. Qed.
Lemma sub_pos : forall x y, ffin x -> ffin y -> fval y < fval x -> 0 < rnd (fval x - fval y).
Proof.
  intros x y Hx Hy H. assert (0 <= rnd (fval x - fval y)) by (rewrite <- rnd_0; apply rnd_mono; lra).
  assert (Q : rnd (fval x - fval y) <> 0); [|lra]. unfold rnd, Rminus. apply (round_plus_neq_0 radix2 fx ZnearestE).
  - now apply fin_format.
  - apply generic_format_opp. now apply fin_format.
  - lra.
Qed.
Section Images.
  Variable L : Libm.
  Hint Extern 0 (Num F) => exact (NumF L) : typeclass_instances.
  Context {G : Geo F}.
  Hypothesis HG : two_or_threeF G.
  Variable p : Par F.
  Variable M : R.
  Hypothesis HM : 1 <= M <= 1048576.
  Hypothesis Hd : ffin (dx p) /\ bpow radix2 (-900) <= fval (dx p) <= bpow radix2 900.
  Hypothesis HL : box_sideF M p (Lx p).
  Let h := fval (dx p).

  Lemma four_F : ffin (nmul (nofZ 4) (dx p)) /\ Rabs (fval (nmul (nofZ 4) (dx p)) - 4 * h) <= eps * (4 * h).
  Proof.
    pose proof (h_pos p Hd) as P. fold h in P. destruct (nofZ_F L 4 ltac:(cbn; lia)) as (Fz & Ez).
    destruct (mul_err (@nofZ F (NumF L) 4) (dx p) (4 * h) Fz (proj1 Hd)) as (F1 & E1); rewrite ?Ez; fold h.
    - apply Rabs_le. lra.
    - apply (inb p Hd). lra.
    - rewrite Ez in E1. fold h in E1. auto.
  Qed.
  Lemma image_F : forall x : TV, ffin (vget x 0) -> 0 <= fval (vget x 0) <= fval (Lx p) ->
    match pbc_image p 4 x with
    | Some g => (exists s, (s = fval (Lx p) /\ fval (vget x 0) <= 4 * h + eps * (4 * h) \/ s = - fval (Lx p) /\ fval (Lx p) - fval (vget x 0) <= 4 * h + eps * (12 * h)) /\
        ffin (vget g 0) /\ Rabs (fval (vget g 0) - (fval (vget x 0) + s)) <= eps * (M * h)) /\ forall k, (0 < k < dim)%nat -> vget g k = vget x k
    | None => (4 * h - eps * (4 * h) <= fval (vget x 0)) /\ (fval (Lx p) - fval (vget x 0) = 0 \/ 4 * h - eps * (12 * h) <= fval (Lx p) - fval (vget x 0))
    end.
  Proof.
    intros x Fx Bx. pose proof (h_pos p Hd) as P. fold h in P. pose proof eps_pos as E0. destruct HL as (Fl & Bl). fold h in Bl. destruct four_F as (F4 & E4). apply Rabs_le_inv in E4.
    destruct (nofZ_F L 0 ltac:(cbn; lia)) as (F0 & Z0). assert (e4 : eps * (4 * h) <= h / 1000) by (unfold eps; lra).
    unfold pbc_image. cbv zeta. set (f4 := nmul (@nofZ F (NumF L) 4) (dx p)) in *. set (z := @nofZ F (NumF L) 0) in *.
    assert (B0 : Rabs (fval (Lx p) - fval (vget x 0)) <= M * h) by (apply Rabs_le; lra).
    assert (Hin : bpow radix2 (-1000) <= M * h <= bpow radix2 1000) by (apply (inb p Hd); lra).
    destruct (fsub_spec (Lx p) (vget x 0) Fl Fx) as (Fs & Es); [eapply big; [exact B0|apply Hin]|].
    destruct (sub_err (Lx p) (vget x 0) (M * h) Fl Fx B0 Hin) as (_ & Er). apply Rabs_le_inv in Er.
    change (nsub (Lx p) (vget x 0)) with (SFsub fprec femax (Lx p) (vget x 0)). set (df := SFsub fprec femax (Lx p) (vget x 0)) in *.
    change (nltb df f4) with (SFltb df f4). change (nltb z df) with (SFltb z df). change (nltb (vget x 0) f4) with (SFltb (vget x 0) f4). change (nleb z (vget x 0)) with (SFleb z (vget x 0)).
    rewrite !flt_spec, !fle_spec by assumption.
    (* the difference, to relative precision, when it is small *)
    assert (Sm : fval df < 5 * h -> Rabs (fval df - (fval (Lx p) - fval (vget x 0))) <= eps * (6 * h)).
    { intros Hs. destruct (Rle_lt_dec (fval (Lx p) - fval (vget x 0)) (6 * h)) as [C|C].
      - destruct (sub_err (Lx p) (vget x 0) (6 * h) Fl Fx) as (_ & Q); [apply Rabs_le; lra|apply (inb p Hd); lra|exact Q].
      - exfalso. assert (rnd (6 * h) <= fval df) by (rewrite Es; apply rnd_mono; lra).
        pose proof (rnd_rel (6 * h) (6 * h) ltac:(rewrite Rabs_pos_eq; lra) ltac:(apply (inb p Hd); lra)) as Q. apply Rabs_le_inv in Q. assert (eps * (6 * h) <= h / 1000) by (unfold eps; lra). lra. }
    destruct (Rlt_bool_spec (fval df) (fval f4)) as [C1|C1]; cbn [andb].
    - destruct (Rlt_bool_spec (fval z) (fval df)) as [C2|C2].
      + destruct (vset0F G HG x (@nopp F (NumF L) df)) as (V0 & Vk). split; [|exact Vk]. exists (- fval (Lx p)). rewrite V0. destruct (nopp_F L df Fs) as (Fo & Eo). specialize (Sm ltac:(lra)). apply Rabs_le_inv in Sm. rewrite Eo.
        split; [right; split; auto; lra|]. split; [exact Fo|]. assert (eps * (6 * h) <= eps * (M * h)) by (apply Rmult_le_compat_l; lra). apply Rabs_le. lra.
      + assert (Q : fval (Lx p) - fval (vget x 0) = 0).
        { destruct (Rle_lt_or_eq_dec _ _ (proj2 Bx)) as [Q|Q]; [|lra]. pose proof (sub_pos _ _ Fl Fx Q). rewrite Z0 in C2. cbn in C2. lra. }
        assert (Eq : fval (vget x 0) = fval (Lx p)) by lra.
        destruct (Rlt_bool_spec (fval (vget x 0)) (fval f4)) as [C3|C3]; cbn [andb].
        * destruct (Rle_bool_spec (fval z) (fval (vget x 0))) as [C4|C4]; [|rewrite Z0 in C4; cbn in C4; lra].
          destruct (vset0F G HG x (nadd (Lx p) (vget x 0))) as (V0 & Vk). split; [|exact Vk]. exists (fval (Lx p)). rewrite V0.
          destruct (add_err (Lx p) (vget x 0) (10 * h) Fl Fx) as (Fa & Ea); [apply Rabs_le; lra|apply (inb p Hd); lra|].
          split; [left; split; auto; lra|]. split; [exact Fa|].
          destruct (add_err (Lx p) (vget x 0) (M * h) Fl Fx) as (_ & Ea'); [apply Rabs_le; lra|exact Hin|]. rewrite (Rplus_comm (fval (vget x 0))). exact Ea'.
        * split; [lra|left; auto].
    - assert (D4 : 4 * h - eps * (12 * h) <= fval (Lx p) - fval (vget x 0)).
      { destruct (Rle_lt_dec (4 * h) (fval (Lx p) - fval (vget x 0))) as [C|C]; [lra|].
        destruct (sub_err (Lx p) (vget x 0) (4 * h) Fl Fx) as (_ & Q); [apply Rabs_le; lra|apply (inb p Hd); lra|]. apply Rabs_le_inv in Q. fold df in Q. lra. }
      destruct (Rlt_bool_spec (fval (vget x 0)) (fval f4)) as [C3|C3]; cbn [andb].
      + destruct (Rle_bool_spec (fval z) (fval (vget x 0))) as [C4|C4]; [|rewrite Z0 in C4; cbn in C4; lra].
        destruct (vset0F G HG x (nadd (Lx p) (vget x 0))) as (V0 & Vk). split; [|exact Vk]. exists (fval (Lx p)). rewrite V0.
        destruct (add_err (Lx p) (vget x 0) (M * h) Fl Fx) as (Fa & Ea'); [apply Rabs_le; lra|exact Hin|].
        split; [left; split; auto; lra|]. split; [exact Fa|]. rewrite (Rplus_comm (fval (vget x 0))). exact Ea'.
      + split; [lra|right; auto].
  Qed.

  Lemma wrap_F : forall x : TV, use_pbc p = true -> ffin (vget x 0) -> - fval (Lx p) <= fval (vget x 0) <= 2 * fval (Lx p) ->
    ffin (vget (pbc_wrap p x) 0) /\ 0 <= fval (vget (pbc_wrap p x) 0) <= fval (Lx p) /\
    (fval (vget (pbc_wrap p x) 0) = fval (vget x 0) \/ fval (vget (pbc_wrap p x) 0) = fval (vget x 0) - fval (Lx p) \/ Rabs (fval (vget (pbc_wrap p x) 0) - (fval (vget x 0) + fval (Lx p))) <= eps * (M * h)) /\
    forall k, (0 < k < dim)%nat -> vget (pbc_wrap p x) k = vget x k.
  Proof.
    intros x Hp Fx Bx. pose proof (h_pos p Hd) as P. fold h in P. destruct HL as (Fl & Bl). fold h in Bl. destruct (nofZ_F L 0 ltac:(cbn; lia)) as (F0 & Z0).
    assert (Hin : bpow radix2 (-1000) <= M * h <= bpow radix2 1000) by (apply (inb p Hd); lra).
    unfold pbc_wrap. rewrite Hp. set (z := @nofZ F (NumF L) 0) in *.
    change (nltb (Lx p) (vget x 0)) with (SFltb (Lx p) (vget x 0)). change (nltb (vget x 0) z) with (SFltb (vget x 0) z). rewrite !flt_spec by assumption.
    destruct (Rlt_bool_spec (fval (Lx p)) (fval (vget x 0))) as [C|C].
    - destruct (vset0F G HG x (nsub (vget x 0) (Lx p))) as (V0 & Vk). rewrite V0. 
      assert (R1 : rnd (fval (vget x 0) - fval (Lx p)) = fval (vget x 0) - fval (Lx p)).
      { apply round_generic; [apply valid_rnd_N|]. apply sterbenz; [apply (fexp_correct 53 1024); reflexivity|apply (fexp_monotone 53 1024)|now apply fin_format|now apply fin_format|lra]. }
      destruct (fsub_spec (vget x 0) (Lx p) Fx Fl) as (Fs & Es); [eapply big with (B := M * h); [apply Rabs_le; lra|apply Hin]|]. cbn [nsub NumF]. rewrite Es, R1. split; [exact Fs|]. split; [lra|]. split; [auto|exact Vk].
    - destruct (Rlt_bool_spec (fval (vget x 0)) (fval z)) as [C2|C2]; rewrite Z0 in C2.
      + destruct (vset0F G HG x (nadd (Lx p) (vget x 0))) as (V0 & Vk). rewrite V0. 
        assert (B1 : Rabs (fval (Lx p) + fval (vget x 0)) <= M * h) by (apply Rabs_le; lra).
        destruct (fadd_spec (Lx p) (vget x 0) Fl Fx) as (Fs & Es); [eapply big; [exact B1|apply Hin]|]. destruct (add_err (Lx p) (vget x 0) (M * h) Fl Fx B1 Hin) as (_ & Er).
        cbn [nadd NumF]. split; [exact Fs|]. split; [|split; [right; right; rewrite (Rplus_comm (fval (vget x 0))); exact Er|exact Vk]].
        rewrite Es. split; [rewrite <- rnd_0; apply rnd_mono; lra|]. eapply Rle_trans; [apply rnd_mono with (y := fval (Lx p)); lra|]. rewrite (rnd_id (Lx p) Fl). lra.
      + do 2 (split; [auto; lra|]). split; auto.
  Qed.
End Images.
