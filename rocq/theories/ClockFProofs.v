(** * ClockFProofs: the clock of the main loop in binary64. *)
From Coq Require Import Reals ZArith Lra Lia List Bool Floats.SpecFloat.
From Flocq Require Import Core BinarySingleNaN.
From Verif Require Import Num NumF Tools Lin Types Remesh Objects Transfer Rma Plastic Pbc Step SpecObj SpecTime Spec ResProofs PlateProofs TimeProofs SpecF FloatBase.
Import ListNotations.
Local Open Scope R_scope.

(** ** The files of a loop whose clock keeps an invariant, in any arithmetic *)
Section Files.
  Context {A : Type} {NA : Num A} {G : Geo A}.
  Variable svd : TM -> TM * TV * TM.
  Variable uabs : A -> A.
  Variable p : Par A.
  Variables (Inv OT : St A -> Prop).
  Hypothesis Hstep : forall af sc s0 s1, Inv s0 -> (s_frame s0 < end_frame p)%Z -> advanceStep svd uabs af p sc s0 = Ok s1 ->
    let s2 := tick p s1 in Inv s2 /\ (s_frame s2 = s_frame s0 \/ (s_frame s2 = s_frame s0 + 1)%Z /\ OT s2) /\
    (at_end p s2 = true <-> s_frame s2 = end_frame p).
  Lemma loop_files_gen : forall fuel af sch k s st s' ev, save_sim p = true -> Inv s -> (s_frame s < end_frame p)%Z ->
    sim_loop svd uabs fuel af p sch k s = Ok (st, s', ev) ->
    Forall OT (particle_files ev) /\
    exists n, match st with
      | Finished => s_frame s' = end_frame p /\ (s_frame s + Z.of_nat n = end_frame p)%Z /\
                    map s_frame (particle_files ev) = upfrom (s_frame s + 1) n ++ [end_frame p]
      | Aborted => s_frame s' = (s_frame s + Z.of_nat n)%Z /\ (s_frame s' < end_frame p)%Z /\
                    map s_frame (particle_files ev) = upfrom (s_frame s + 1) n
      | _ => False end.
  Proof.
    induction fuel as [|fuel IH]; intros af sch k s st s' ev Hs Hi Hlt H; cbn [sim_loop] in H; rewrite (proj2 (Z.ltb_lt _ _) Hlt) in H; [discriminate|].
    apply bind_Ok in H. destruct H as (s1 & E & H).
    destruct (Hstep af (sch k) s s1 Hi Hlt E) as (I2 & F2 & A2). destruct (step_clock svd uabs _ _ _ _ _ E) as (_ & F1 & _).
    destruct (s_exit s1) eqn:X.
    { injection H as <- <- <-. split; [constructor|]. exists 0%nat. rewrite Z.add_0_r, F1. auto. }
    cbv zeta in H. set (s2 := tick p s1) in *.
    set (ev1 := if (s_frame s2 =? s_frame s1)%Z then [] else save_frame p s2) in *.
    assert (Q1 : (s_frame s2 = s_frame s /\ ev1 = []) \/ (s_frame s2 = s_frame s + 1)%Z /\ ev1 = save_frame p s2 /\ OT s2).
    { unfold ev1. rewrite F1. destruct F2 as [F2|(F2 & L)]; [left|right]; rewrite F2; split; auto.
      - now rewrite Z.eqb_refl.
      - rewrite (proj2 (Z.eqb_neq _ _)) by lia. split; auto. }
    destruct (at_end p s2) eqn:AE.
    - injection H as <- <- <-. assert (AE' : s_frame s2 = end_frame p) by now apply A2. rewrite files_app, files_save by auto.
      destruct Q1 as [(Q & _)|(Q & -> & O)]; [lia|]. rewrite files_save by auto.
      split; [constructor; [exact O|constructor; [exact O|constructor]]|].
      exists 1%nat. split; auto. split; [lia|]. rewrite <- AE', Q. unfold upfrom. cbn [seq map app Z.of_nat]. now rewrite Q, Z.add_0_r.
    - apply bind_Ok in H. destruct H as (r & E' & H). injection H as <- <- <-. destruct r as [[st s'] ev']. cbn [fst snd].
      assert (Hlt2 : (s_frame s2 < end_frame p)%Z). { assert (s_frame s2 <> end_frame p) by (intros K; apply A2 in K; discriminate). lia. }
      destruct (IH _ _ _ _ _ _ _ Hs I2 Hlt2 E') as (O & n & M).
      rewrite files_app, map_app.
      destruct Q1 as [(Q & ->)|(Q & Ee & O1)].
      + split; [auto|]. exists n. rewrite Q in M. cbn. auto.
      + split; [rewrite Ee, files_save by auto; constructor; auto|].
        exists (S n). rewrite Ee, files_save, upfrom_S by auto. rewrite Q in M. cbn [map app]. rewrite Q.
        destruct st; auto; destruct M as (M1 & M2 & M3); rewrite M3; repeat split; auto; lia.
  Qed.
End Files.

Lemma valid_inf : forall s, valid_binary 53 1024 (S754_infinity s) = true.
Proof. reflexivity. Qed.
Lemma fnum_cases : forall x, fnum x -> ffin x \/ x = S754_infinity false \/ x = S754_infinity true.
Proof. intros [s|s| |s m e] (V & N); try discriminate; [left; split; reflexivity| |left; split; auto]. destruct s; auto. Qed.
(** std::min and std::max. *)
Lemma cmin_F : forall L x b, fnum x -> ffin b -> let c := @cmin F (NumF L) x b in
  fnum c /\ (c = S754_infinity true \/ ffin c /\ fval c <= fval b) /\ (ffin x -> ffin c /\ fval c <= fval x).
Proof.
  intros L x b Hx Hb. cbv zeta. unfold cmin. cbn [nltb NumF].
  assert (Nb : fnum b) by (destruct Hb as (V & Fi); split; auto; destruct b; auto; discriminate).
  destruct (fnum_cases x Hx) as [Fx|[-> | ->]].
  - rewrite flt_spec by auto. destruct (Rlt_bool_spec (fval b) (fval x)).
    + split; [auto|]. split; [right; split; auto; lra|]. intros _. split; auto; lra.
    + split; [auto|]. split; [right; split; auto; lra|]. intros _. split; auto; lra.
  - replace (SFltb b (S754_infinity false)) with true by (destruct Hb as (_ & Fi); destruct b as [ | | |[] ? ?]; try discriminate; reflexivity).
    split; [auto|]. split; [right; split; auto; lra|]. intros (_ & K). discriminate.
  - replace (SFltb b (S754_infinity true)) with false by (destruct Hb as (_ & Fi); destruct b as [ | | |[] ? ?]; try discriminate; reflexivity).
    split; [auto|]. split; [auto|]. intros (_ & K). discriminate.
Qed.
Lemma cmax_F : forall L x m, x = S754_infinity true \/ ffin x -> ffin m -> let c := @cmax F (NumF L) x m in
  ffin c /\ fval m <= fval c /\ (c = m \/ c = x /\ ffin x).
Proof.
  intros L x m Hx Hm. cbv zeta. unfold cmax. cbn [nltb NumF]. destruct Hx as [->|Fx].
  - replace (SFltb (S754_infinity true) m) with true by (destruct Hm as (_ & Fi); destruct m as [ | | |[] ? ?]; try discriminate; reflexivity). split; auto. split; [lra|auto].
  - rewrite flt_spec by auto. destruct (Rlt_bool_spec (fval x) (fval m)); split; auto; split; auto; lra.
Qed.
(** A quotient by anything but NaN or zero is a number. *)
Lemma div_num : forall x y, ffin x -> y <> S754_nan -> (forall s, y <> S754_zero s) -> fnum (SFdiv fprec femax x y).
Proof.
  intros x y (V & Fi) Hn Hz. destruct x as [s|s| |s m e]; try discriminate; destruct y as [s'|s'| |s' m' e']; try (exfalso; now apply Hn); try (exfalso; now apply (Hz s')); cbn; try (split; reflexivity).
  pose proof (Bdiv_correct_aux 53 1024 Hprec Hmax mode_NE s m e s' m' e') as K. cbv zeta in K. change fprec with 53%Z. change femax with 1024%Z.
  destruct (SFdiv_core_binary 53 1024 (Z.pos m) e (Z.pos m') e') as [[q e2] l] eqn:Eq. rewrite raux_equiv. destruct K as (V2 & K).
  split; [exact V2|]. destruct (Rlt_bool _ _).
  - destruct K as (_ & K2 & _). destruct (binary_round_aux _ _ _ _ _ _); try reflexivity; discriminate.
  - rewrite K. reflexivity.
Qed.

Section Clock.
  Variable L : Libm.
  Hint Extern 0 (Num F) => exact (NumF L) : typeclass_instances.
  Context {G : Geo F}.
  Variable svd : TM -> TM * TV * TM.
  Variable uabs : F -> F.

  (** The step, given that the differences to the next frame and to the end are numbers. *)
  Lemma dt_F : forall (p : Par F) sp t f, ffin (nmul (cfl p) (dx p)) -> fnum (dt_max p) -> ffin (min_dt p) ->
    ffin (nsub (nmul (frame_dt p) (nofZ (f + 1))) t) -> ffin (nsub (final_time p) t) ->
    let dt := dt_of p sp t f in
    ffin dt /\ fval (min_dt p) <= fval dt /\
    fval dt <= Rmax (fval (min_dt p)) (fval (nsub (nmul (frame_dt p) (nofZ (f + 1))) t)) /\
    fval dt <= Rmax (fval (min_dt p)) (fval (nsub (final_time p) t)) /\
    (ffin (dt_max p) -> fval dt <= Rmax (fval (min_dt p)) (fval (dt_max p))) /\
    (nltb (nofQ 1 10000000000) (nabs sp) = true -> ffin (ndiv (nmul (cfl p) (dx p)) sp) ->
     fval dt <= Rmax (fval (min_dt p)) (fval (ndiv (nmul (cfl p) (dx p)) sp))).
  Proof.
    intros p sp t f Hc Hd Hm Hk Ht. cbv zeta. unfold dt_of. cbv zeta.
    set (k := nsub (nmul (frame_dt p) (nofZ (f + 1))) t) in *. set (r := nsub (final_time p) t) in *. set (q := ndiv (nmul (cfl p) (dx p)) sp).
    set (b := nltb (nofQ 1 10000000000) (nabs sp)).
    assert (K0 : exists d0, (if b then cmin q (dt_max p) else dt_max p) = d0 /\ fnum d0 /\
      (ffin (dt_max p) -> (d0 = S754_infinity true \/ ffin d0 /\ fval d0 <= fval (dt_max p))) /\
      (b = true -> ffin q -> (d0 = S754_infinity true \/ ffin d0 /\ fval d0 <= fval q))).
    { eexists; split; [reflexivity|]. destruct b eqn:B.
      - assert (Nq : fnum q).
        { apply div_num; auto.
          - intros ->. unfold b in B. cbn in B. discriminate.
          - intros s ->. unfold b in B. cbn in B. vm_compute in B. discriminate. }
        destruct (fnum_cases (dt_max p) Hd) as [Fd|[E|E]].
        + destruct (cmin_F L q (dt_max p) Nq Fd) as (C1 & C2 & C3). split; [exact C1|]. split; [intros _; exact C2|]. intros _ Fq. destruct (C3 Fq); auto.
        + rewrite E. unfold cmin. cbn [nltb NumF]. replace (SFltb (S754_infinity false) q) with false by (destruct q as [|[]| |[] ? ?]; reflexivity).
          split; auto. split; [intros (_ & X); discriminate|]. intros _ Fq. right. split; auto; lra.
        + rewrite E. unfold cmin. cbn [nltb NumF]. split; [destruct (SFltb _ _); auto; split; reflexivity|]. split; [intros (_ & X); discriminate|]. intros _ Fq. left.
          replace (SFltb (S754_infinity true) q) with true by (destruct Fq as (_ & Fi); destruct q as [ | | |[] ? ?]; try discriminate; reflexivity). reflexivity.
      - split; [exact Hd|]. split; [|discriminate]. intros Fd. right. split; auto; lra. }
    destruct K0 as (d0 & -> & N0 & B0 & Q0).
    destruct (cmin_F L d0 k N0 Hk) as (N1 & B1 & P1). set (d1 := cmin d0 k) in *.
    destruct (cmin_F L d1 r N1 Ht) as (N2 & B2 & P2). set (d2 := cmin d1 r) in *.
    assert (B2' : d2 = S754_infinity true \/ ffin d2) by (destruct B2 as [B2|(B2 & _)]; auto).
    destruct (cmax_F L d2 (min_dt p) B2' Hm) as (M1 & M2 & M3). set (dt := cmax d2 (min_dt p)) in *.
    assert (Ni : d1 = S754_infinity true -> d2 = S754_infinity true).
    { intros E. unfold d2. rewrite E. unfold cmin. cbn [nltb NumF]. replace (SFltb r (S754_infinity true)) with false by (destruct Ht as (_ & Fi); destruct r as [ | | |[] ? ?]; try discriminate; reflexivity). reflexivity. }
    assert (Ni0 : d0 = S754_infinity true -> d1 = S754_infinity true).
    { intros E. unfold d1. rewrite E. unfold cmin. cbn [nltb NumF]. replace (SFltb k (S754_infinity true)) with false by (destruct Hk as (_ & Fi); destruct k as [ | | |[] ? ?]; try discriminate; reflexivity). reflexivity. }
    assert (Nf : ~ ffin (S754_infinity true)) by (intros (_ & X); discriminate).
    split; [exact M1|]. split; [exact M2|].
    destruct M3 as [->|(-> & Fd2)]; [repeat split; intros; apply Rmax_l|].
    destruct B2 as [B2|(_ & L2)]; [rewrite B2 in Fd2; contradiction|].
    destruct B1 as [B1|(Fd1 & L1)]; [rewrite (Ni B1) in Fd2; contradiction|]. destruct (P2 Fd1) as (_ & L21).
    repeat split; try (eapply Rle_trans; [|apply Rmax_r]; lra).
    - intros Fd. destruct (B0 Fd) as [E|(F0 & L0)]; [rewrite (Ni (Ni0 E)) in Fd2; contradiction|]. destruct (P1 F0). eapply Rle_trans; [|apply Rmax_r]. lra.
    - intros Bt Fq. destruct (Q0 Bt Fq) as [E|(F0 & L0)]; [rewrite (Ni (Ni0 E)) in Fd2; contradiction|]. destruct (P1 F0). eapply Rle_trans; [|apply Rmax_r]. lra.
  Qed.

  Section Par.
  Variable p : Par F.
  Hypothesis Hp : clock_okF L p.
  Let m := fval (min_dt p).
  Let d := 1 / fval (fps p).
  Let e := / 9007199254740992.
  Let eta := bpow radix2 (-1075).
  Lemma e_val : bpow radix2 (-53) = e.
  Proof. unfold e. cbn. lra. Qed.
  Lemma m_pos : 0 < m.
  Proof. destruct (ck_min L p Hp) as (_ & H). eapply Rlt_le_trans; [apply bpow_gt_0|exact H]. Qed.
  Lemma eta_pos : 0 < eta.
  Proof. apply bpow_gt_0. Qed.
  Lemma eta_m : eta <= e * m / 1000000.
  Proof.
    destruct (ck_min L p Hp) as (_ & H). fold m in H. pose proof m_pos. unfold eta. apply Rle_trans with (bpow radix2 (-75) * bpow radix2 (-1000)).
    - rewrite <- bpow_plus. apply bpow_le. lia.
    - apply Rle_trans with (bpow radix2 (-75) * m); [apply Rmult_le_compat_l; auto; apply bpow_ge_0|]. replace (bpow radix2 (-75)) with (e / 4194304) by (unfold e; cbn; lra). unfold e. lra.
  Qed.
  Lemma d_facts : 8 * m <= d /\ IZR (end_frame p) * d <= 4503599627370496 * m /\ IZR (end_frame p) * d <= bpow radix2 1000 /\ d <= bpow radix2 1000.
  Proof.
    pose proof (ck_sep L p Hp) as H1. pose proof (ck_len L p Hp) as H2. pose proof (ck_max L p Hp) as H3. destruct (ck_end L p Hp) as (He & _). pose proof m_pos as Hm. fold m in H1, H2. fold d in H1.
    replace (IZR (end_frame p) / fval (fps p)) with (IZR (end_frame p) * d) in H2, H3 by (unfold d; field; destruct (ck_fps L p Hp); lra).
    replace (bpow radix2 52) with 4503599627370496 in H2 by (cbn; lra). repeat split; auto.
    apply IZR_le in He. assert (1 * d <= IZR (end_frame p) * d) by (apply Rmult_le_compat_r; lra). lra.
  Qed.
  Lemma rnd_pos_err : forall x, 0 <= x -> x - e * x - eta <= rnd x <= x + e * x + eta.
  Proof. intros x Hx. pose proof (rnd_err x) as H. rewrite e_val, (Rabs_pos_eq x Hx) in H. fold eta in H. apply Rabs_le_inv in H. lra. Qed.

  Lemma frame_dt_F : ffin (frame_dt p) /\ d * (1 - 101/100 * e) <= fval (frame_dt p) <= d * (1 + 101/100 * e).
  Proof.
    destruct d_facts as (D1 & _ & _ & D4). pose proof m_pos. pose proof eta_m. destruct (ck_fps L p Hp) as (Ff & Pf). destruct (nofZ_F L 1 ltac:(cbn; lia)) as (F1 & E1).
    assert (Ex : 1 / fval (fps p) = d) by reflexivity. destruct (rnd_pos_err d ltac:(lra)) as (R1 & R2).
    destruct (fdiv_spec (@nofZ F _ 1) (fps p) F1 Ff ltac:(lra)) as (Q1 & Q2).
    { rewrite E1, Ex. apply rnd_small. rewrite Rabs_pos_eq by lra. eapply Rle_trans; [exact D4|]. apply bpow_le. lia. }
    rewrite E1, Ex in Q2. assert (Ey : frame_dt p = SFdiv fprec femax (@nofZ F _ 1) (fps p)) by reflexivity. rewrite Ey. split; [exact Q1|]. rewrite Q2. assert (0 < e) by (unfold e; lra). unfold e in *. lra.
  Qed.
  (** The time of frame k as the code computes it. *)
  Definition ktime (k : Z) : F := nmul (frame_dt p) (nofZ k).
  Lemma ktime_F : forall k, (1 <= k <= end_frame p)%Z -> ffin (ktime k) /\ IZR k * d * (1 - 203/100 * e) <= fval (ktime k) <= IZR k * d * (1 + 203/100 * e).
  Proof.
    intros k Hk. destruct d_facts as (D1 & D2 & D3 & _). pose proof m_pos. pose proof eta_m. destruct frame_dt_F as (Fd & B1 & B2). destruct (ck_end L p Hp) as (_ & He).
    destruct (nofZ_F L k ltac:(cbn; lia)) as (Fk & Ek). assert (K1 : 1 <= IZR k) by (apply IZR_le; lia). assert (K2 : IZR k <= IZR (end_frame p)) by (apply IZR_le; lia).
    assert (Kd : IZR k * d <= bpow radix2 1000) by (eapply Rle_trans; [apply Rmult_le_compat_r; [lra|exact K2]|exact D3]).
    assert (Kd1 : d <= IZR k * d) by (rewrite <- (Rmult_1_l d) at 1; apply Rmult_le_compat_r; lra).
    assert (X1 : d * (1 - 101 / 100 * e) * IZR k <= fval (frame_dt p) * IZR k) by (apply Rmult_le_compat_r; lra).
    assert (X2 : fval (frame_dt p) * IZR k <= d * (1 + 101 / 100 * e) * IZR k) by (apply Rmult_le_compat_r; lra).
    replace (d * (1 - 101 / 100 * e) * IZR k) with (IZR k * d * (1 - 101 / 100 * e)) in X1 by ring. replace (d * (1 + 101 / 100 * e) * IZR k) with (IZR k * d * (1 + 101 / 100 * e)) in X2 by ring.
    set (X := fval (frame_dt p) * IZR k) in *. set (kd := IZR k * d) in *. unfold e in *.
    destruct (rnd_pos_err X ltac:(lra)) as (R1 & R2). unfold e in R1, R2.
    destruct (fmul_spec (frame_dt p) (@nofZ F _ k) Fd Fk) as (Q1 & Q2).
    { rewrite Ek. fold X. apply rnd_small. rewrite Rabs_pos_eq by lra. apply Rle_trans with (2 * bpow radix2 1000); [lra|]. change 2 with (bpow radix2 1). rewrite <- bpow_plus. apply bpow_le. lia. }
    rewrite Ek in Q2. fold X in Q2. assert (Ey : ktime k = SFmul fprec femax (frame_dt p) (@nofZ F _ k)) by reflexivity. rewrite Ey. split; [exact Q1|]. rewrite Q2. lra.
  Qed.
  Lemma final_F : ffin (final_time p) /\ fval (final_time p) = fval (ktime (end_frame p)).
  Proof.
    destruct (ck_end L p Hp) as (H1 & He). destruct (nofZ_F L (end_frame p) ltac:(cbn; lia)) as (Fk & Ek). destruct frame_dt_F as (Fd & _).
    assert (E : final_time p = ktime (end_frame p)).
    { unfold final_time, ktime. cbn [nmul NumF]. destruct (fin_B _ Fd) as (b & -> & Fb & _). destruct (fin_B _ Fk) as (c & -> & Fc & _). change fprec with 53%Z. change femax with 1024%Z.
      rewrite !mul_equiv. f_equal. destruct b as [sb|sb| |sb mb eb Hb], c as [sc|sc| |sc mc ec Hc]; try discriminate; cbn; try (now rewrite xorb_comm).
      apply B2SF_inj. rewrite !B2SF_SF2B. rewrite (xorb_comm sb), (Pos.mul_comm mb), (Z.add_comm eb). reflexivity. }
    rewrite E. split; auto. apply ktime_F. lia.
  Qed.
  Lemma ktime_mono : forall a b, (1 <= a <= b)%Z -> (b <= end_frame p)%Z -> fval (ktime a) <= fval (ktime b).
  Proof.
    intros a b Hab Hb. destruct frame_dt_F as (Fd & B1 & _). destruct d_facts as (D1 & _ & D3 & _). pose proof m_pos.
    assert (Q : forall k, (1 <= k <= end_frame p)%Z -> fval (ktime k) = rnd (fval (frame_dt p) * IZR k)).
    { intros k Hk. destruct (ck_end L p Hp) as (_ & He). destruct (nofZ_F L k ltac:(cbn; lia)) as (Fk & Ek). destruct (ktime_F k Hk) as (Q1 & _).
      destruct (fin_B _ Fd) as (x & Ex & Fx & Vx). destruct (fin_B _ Fk) as (y & Ey & Fy & Vy). unfold ktime in *. cbn [nmul NumF] in *. rewrite <- Vx, <- Ek, <- Vy in *. rewrite Ex, Ey in *.
      change fprec with 53%Z in *. change femax with 1024%Z in *. rewrite mul_equiv in *.
      pose proof (Bmult_correct 53 1024 _ _ mode_NE x y) as K. destruct (Rlt_bool _ _).
      - destruct K as (K1 & _). unfold fval. rewrite SF2R_B2SF. exact K1.
      - destruct Q1 as (_ & Q1). rewrite K in Q1. discriminate. }
    rewrite !Q by lia. apply rnd_mono. apply Rmult_le_compat_l; [unfold e in *; lra|]. apply IZR_le. lia.
  Qed.
  (** The tolerance of the frame test. *)
  Definition tol : F := nmul (min_dt p) (nofQ 11 10).
  Lemma tol_F : ffin tol /\ 109/100 * m <= fval tol <= 111/100 * m.
  Proof.
    destruct (ck_min L p Hp) as (Fm & _). pose proof m_pos. pose proof eta_m. destruct d_facts as (D1 & _ & _ & D4).
    destruct (fofQ_spec 11 10) as (F1 & E1). { apply rnd_small. rewrite Rabs_pos_eq by lra. apply Rle_trans with (bpow radix2 2); [cbn; lra|apply bpow_le; lia]. }
    assert (B : 10999/10000 <= fval (fofQ 11 10) <= 11001/10000).
    { rewrite E1. pose proof (rnd_err (11/10)) as R. rewrite e_val, (Rabs_pos_eq (11/10)) in R by lra. assert (bpow radix2 (-1075) <= bpow radix2 (-53)) by (apply bpow_le; lia). rewrite e_val in *. unfold e in *. apply Rabs_le_inv in R. lra. }
    assert (X1 : 10999/10000 * m <= m * fval (fofQ 11 10) <= 11001/10000 * m) by (split; rewrite (Rmult_comm m); apply Rmult_le_compat_r; lra).
    set (X := m * fval (fofQ 11 10)) in *. destruct (rnd_pos_err X ltac:(lra)) as (R1 & R2). unfold e in *.
    destruct (fmul_spec (min_dt p) (fofQ 11 10) Fm F1) as (Q1 & Q2).
    { fold m. fold X. apply rnd_small. rewrite Rabs_pos_eq by lra. apply Rle_trans with (bpow radix2 1000); [lra|apply bpow_le; lia]. }
    fold m in Q2. fold X in Q2. assert (Ey : tol = SFmul fprec femax (min_dt p) (fofQ 11 10)) by reflexivity. rewrite Ey. split; [exact Q1|]. rewrite Q2. lra.
  Qed.
  Lemma sub_F : forall x y, ffin x -> ffin y -> 0 <= fval x <= 4 * bpow radix2 1000 -> 0 <= fval y <= 4 * bpow radix2 1000 ->
    ffin (nsub x y) /\ fval (nsub x y) = rnd (fval x - fval y).
  Proof.
    intros x y Hx Hy Bx By. apply fsub_spec; auto. apply rnd_small. apply Rle_trans with (4 * bpow radix2 1000).
    - apply Rabs_le. lra.
    - change 4 with (bpow radix2 2). rewrite <- bpow_plus. apply bpow_le. lia.
  Qed.

  (** The clock at the head of the loop. *)
  Definition cinv (s : St F) : Prop :=
    (0 <= s_frame s <= end_frame p)%Z /\ ffin (s_time s) /\ 0 <= fval (s_time s) <= 4 * bpow radix2 1000 /\
    ((s_frame s < end_frame p)%Z -> fval tol <= rnd (fval (ktime (s_frame s + 1)) - fval (s_time s))).
  Definition cot (s : St F) : Prop :=
    ffin (s_time s) /\ Rabs (fval (s_time s) - IZR (s_frame s) * d) <= 12/10 * m + bpow radix2 (-50) * (IZR (s_frame s) * d).

  Lemma rnd_lt : forall x v, ffin v -> rnd x < fval v -> x < fval v.
  Proof. intros x v Fv H. destruct (Rlt_or_le x (fval v)); auto. apply rnd_mono in H0. rewrite rnd_id in H0 by auto. lra. Qed.
  Lemma cinv_time : forall s, cinv s -> (s_frame s < end_frame p)%Z -> fval (s_time s) <= fval (ktime (s_frame s + 1)).
  Proof.
    intros s (F0 & Ft & B & Hk) Hlt. specialize (Hk Hlt). destruct tol_F as (_ & T1 & _). pose proof m_pos.
    destruct (Rle_or_lt (fval (s_time s)) (fval (ktime (s_frame s + 1)))) as [K|K]; auto. assert (rnd (fval (ktime (s_frame s + 1)) - fval (s_time s)) <= rnd 0) by (apply rnd_mono; lra). rewrite rnd_0 in *. lra.
  Qed.
  Lemma cstep : forall af sc s0 s1, cinv s0 -> (s_frame s0 < end_frame p)%Z -> advanceStep svd uabs af p sc s0 = Ok s1 ->
    let s2 := tick p s1 in cinv s2 /\ (s_frame s2 = s_frame s0 \/ (s_frame s2 = s_frame s0 + 1)%Z /\ cot s2) /\
    (at_end p s2 = true <-> s_frame s2 = end_frame p) /\ fval (s_time s0) + m / 3 <= fval (s_time s2).
  Proof.
    intros af sc s0 s1 Hi Hlt H s2. pose proof (cinv_time s0 Hi Hlt) as Tk. destruct Hi as (F0 & Ft & Bt & Hk). specialize (Hk Hlt).
    destruct (step_clock svd uabs af p sc s0 s1 H) as (Et & Ef & _). destruct (step_dt_grav svd uabs af p sc s0 s1 H) as (_ & _ & sp & Es & Ed).
    set (t := s_time s0) in *. set (f := s_frame s0) in *.
    destruct (ktime_F (f + 1) ltac:(lia)) as (Fk & K1 & K2). destruct final_F as (Ff & Ef2). destruct (ktime_F (end_frame p) ltac:(lia)) as (Fe & N1 & N2).
    pose proof (ktime_mono (f + 1) (end_frame p) ltac:(lia) ltac:(lia)) as Mo. rewrite <- Ef2 in N1, N2, Mo.
    destruct d_facts as (D1 & D2 & D3 & D4). pose proof m_pos as Hm. pose proof eta_m as He. pose proof eta_pos as Hep. destruct tol_F as (Ftol & V1 & V2).
    assert (X1 : 1 <= IZR (f + 1)) by (apply IZR_le; lia). assert (X2 : IZR (f + 1) <= IZR (end_frame p)) by (apply IZR_le; lia).
    assert (Y1 : d <= IZR (f + 1) * d) by (rewrite <- (Rmult_1_l d) at 1; apply Rmult_le_compat_r; lra).
    assert (Y2 : IZR (f + 1) * d <= IZR (end_frame p) * d) by (apply Rmult_le_compat_r; lra).
    set (kd := IZR (f + 1) * d) in *. set (nd := IZR (end_frame p) * d) in *. set (K := fval (ktime (f + 1))) in *. set (T := fval (final_time p)) in *.
    assert (HeB : 0 < e) by (unfold e; lra).
    assert (KB : 0 <= K <= 2 * bpow radix2 1000) by (unfold e in *; lra). assert (TB : 0 <= T <= 2 * bpow radix2 1000) by (unfold e in *; lra).
    destruct (sub_F (ktime (f + 1)) t Fk Ft ltac:(fold K; lra) ltac:(lra)) as (Fs & Es1). fold K in Es1.
    destruct (sub_F (final_time p) t Ff Ft ltac:(fold T; lra) ltac:(lra)) as (Fs2 & Es2). fold T in Es2.
    destruct (dt_F p sp t f (ck_cfl L p Hp) (ck_dtmax L p Hp) (proj1 (ck_min L p Hp)) Fs Fs2) as (Fdt & L1 & L2 & _).
    fold (ktime (f + 1)) in L2. rewrite Es1 in L2. rewrite <- Ed in Fdt, L1, L2. fold m in L1, L2. set (dt := s_dt s1) in *.
    set (tt := fval t) in *. rewrite Rmax_right in L2 by lra.
    destruct (rnd_pos_err (K - tt) ltac:(lra)) as (R1 & R2).
    assert (Sum : 0 <= tt + fval dt <= K + e * K + eta) by nra.
    destruct (rnd_pos_err (tt + fval dt) ltac:(lra)) as (S1 & S2).
    destruct (fadd_spec t dt Ft Fdt) as (Fn & En).
    { fold tt. apply rnd_small. rewrite Rabs_pos_eq by lra. apply Rle_trans with (bpow radix2 3 * bpow radix2 1000); [replace (bpow radix2 3) with 8 by (cbn; lra); unfold e in *; lra|rewrite <- bpow_plus; apply bpow_le; lia]. }
    fold tt in En. change (SFadd fprec femax t dt) with (nadd t dt) in *. set (t' := nadd t dt) in *. set (T2 := fval t') in *.
    assert (Up : T2 <= kd * (1 + 5 * e)) by (unfold e in *; rewrite En; lra).
    assert (Adv : tt + m / 3 <= T2) by (unfold e in *; rewrite En; lra).
    assert (T2B : 0 <= T2 <= 4 * bpow radix2 1000) by (unfold e in *; lra).
    destruct (sub_F (ktime (f + 1)) t' Fk Fn ltac:(fold K; lra) ltac:(fold T2; lra)) as (Fu & Eu). fold K T2 in Eu.
    destruct (sub_F (final_time p) t' Ff Fn ltac:(fold T; lra) ltac:(fold T2; lra)) as (Fw & Ew). fold T T2 in Ew.
    assert (Etick : s2 = (if nltb (nsub (ktime (f + 1)) t') tol then with_clock s1 t' (f + 1) (wrapu (s_step s1 + 1)) else with_clock s1 t' f (wrapu (s_step s1 + 1)))).
    { unfold s2, tick. rewrite Et, Ef. reflexivity. }
    assert (Eend : at_end p s2 = (Rlt_bool (Rabs (rnd (T - T2))) (fval tol) || Rlt_bool T T2)).
    { assert (Tm : s_time s2 = t') by (rewrite Etick; destruct (nltb _ _); reflexivity). unfold at_end. rewrite Tm. fold tol. cbn [nltb nabs NumF]. change (@nsub F (NumF L) (final_time p) t') with (nsub (final_time p) t').
      destruct (fabs_spec _ Fw) as (Fa & Ea). rewrite flt_spec by auto. rewrite Ea, Ew. rewrite flt_spec by auto. reflexivity. }
    assert (Ecmp : nltb (nsub (ktime (f + 1)) t') tol = Rlt_bool (rnd (K - T2)) (fval tol)) by (cbn [nltb NumF]; rewrite flt_spec by auto; now rewrite Eu).
    rewrite Ecmp in Etick. rewrite Eend. destruct (Rlt_bool_spec (rnd (K - T2)) (fval tol)) as [Lt|Ge].
    - (* the next frame *)
      assert (Lo : K - T2 < fval tol) by (now apply rnd_lt).
      assert (Ot : cot s2).
      { rewrite Etick. unfold cot. cbn [with_clock s_time s_frame]. fold T2 kd. split; [exact Fn|]. replace (bpow radix2 (-50)) with (8 * e) by (unfold e; cbn; lra). apply Rabs_le. unfold e in *. lra. }
      assert (Sep : (f + 1 < end_frame p)%Z -> fval tol <= rnd (fval (ktime (f + 1 + 1)) - T2) /\ fval tol <= T - T2).
      { intros Hf. destruct (ktime_F (f + 1 + 1) ltac:(lia)) as (_ & W1 & _). pose proof (ktime_mono (f + 1 + 1) (end_frame p) ltac:(lia) ltac:(lia)) as Mo2. rewrite <- Ef2 in Mo2. fold T in Mo2.
        assert (E2 : IZR (f + 1 + 1) * d = kd + d) by (rewrite plus_IZR; unfold kd; ring). rewrite E2 in W1.
        assert (IZR (f + 1 + 1) <= IZR (end_frame p)) by (apply IZR_le; lia). assert (kd + d <= nd) by (rewrite <- E2; apply Rmult_le_compat_r; lra).
        assert (fval tol <= fval (ktime (f + 1 + 1)) - T2) by (unfold e in *; lra). split; [|lra]. rewrite <- (rnd_id tol) at 1 by auto. apply rnd_mono. lra. }
      split; [|split; [|split]].
      + rewrite Etick. unfold cinv. cbn [with_clock s_time s_frame]. fold T2. split; [lia|]. split; [exact Fn|]. split; [lra|]. intros Hf. apply (Sep Hf).
      + right. split; [rewrite Etick; reflexivity|exact Ot].
      + assert (Fr : s_frame s2 = (f + 1)%Z) by (rewrite Etick; reflexivity). rewrite Fr, orb_true_iff. split.
        * intros Hor. destruct (Z.eq_dec (f + 1) (end_frame p)) as [E|NE]; auto. exfalso. destruct (Sep ltac:(lia)) as (_ & Q). pose proof Q as Q'. apply rnd_mono in Q. rewrite rnd_id in Q by auto.
          destruct Hor as [Hor|Hor]; [destruct (Rlt_bool_spec (Rabs (rnd (T - T2))) (fval tol)) as [Hc|Hc]; [|discriminate]; rewrite Rabs_pos_eq in Hc by lra; lra|].
          destruct (Rlt_bool_spec T T2); [lra|discriminate].
        * intros E. assert (ET : T = K) by (rewrite Ef2; unfold K; now rewrite E). destruct (Rlt_or_le K T2) as [Hc|Hc]; [right; apply Rlt_bool_true; lra|left]. apply Rlt_bool_true. replace (T - T2) with (K - T2) by lra.
          rewrite Rabs_pos_eq; auto. rewrite <- rnd_0. apply rnd_mono. lra.
      + rewrite Etick. cbn [with_clock s_time]. exact Adv.
    - assert (Q : fval tol <= rnd (T - T2)) by (eapply Rle_trans; [exact Ge|]; apply rnd_mono; lra).
      assert (NE : ~ T < T2). { intros Hc. assert (rnd (T - T2) <= rnd 0) by (apply rnd_mono; lra). rewrite rnd_0 in *. lra. }
      split; [|split; [|split]].
      + rewrite Etick. unfold cinv. cbn [with_clock s_time s_frame]. fold T2. split; [lia|]. split; [exact Fn|]. split; [lra|]. intros _. exact Ge.
      + left. rewrite Etick. reflexivity.
      + assert (Fr : s_frame s2 = f) by (rewrite Etick; reflexivity). rewrite Fr, orb_true_iff. split; [|lia].
        intros [Hor|Hor]; [destruct (Rlt_bool_spec (Rabs (rnd (T - T2))) (fval tol)) as [Hc|Hc]; [|discriminate]; rewrite Rabs_pos_eq in Hc by lra; lra|].
        destruct (Rlt_bool_spec T T2); [lra|discriminate].
      + rewrite Etick. cbn [with_clock s_time]. exact Adv.
  Qed.
  Lemma cstart : forall s, cinv (sim_start p s).
  Proof.
    intros s. destruct (ck_end L p Hp) as (He & _). destruct (nofZ_F L 0 ltac:(cbn; lia)) as (F0 & E0). unfold cinv. cbn [sim_start s_time s_frame].
    split; [lia|]. split; [exact F0|]. rewrite E0. split; [pose proof (bpow_ge_0 radix2 1000); lra|]. intros _. destruct tol_F as (Ftol & _ & V2). destruct (ktime_F 1 ltac:(lia)) as (_ & K1 & _).
    destruct d_facts as (D1 & _). pose proof m_pos. cbn [Z.add]. rewrite <- (rnd_id tol) by auto. apply rnd_mono. unfold e in *. lra.
  Qed.

  Lemma goes_on_time : forall n af s s', goes_on L svd uabs af p n s s' -> cinv s ->
    cinv s' /\ (s_frame s' < end_frame p)%Z /\ fval (s_time s) + INR n * (m / 3) <= fval (s_time s').
  Proof.
    intros n af s s' H. induction H as [s Hlt|sc n s s1 s2 Hlt E X AE _ IH]; intros Hi; [cbn; split; auto; split; auto; lra|].
    destruct (cstep af sc s s1 Hi Hlt E) as (I2 & _ & _ & A2). destruct (IH I2) as (I3 & L3 & A3). split; auto. split; auto. rewrite S_INR. lra.
  Qed.
  Lemma goes_on_bound : forall n af s s', goes_on L svd uabs af p n (sim_start p s) s' -> INR n * m <= 4 * (IZR (end_frame p) / fval (fps p)).
  Proof.
    intros n af s s' H. destruct (goes_on_time n af _ s' H (cstart s)) as (Hi & Hlt & A). pose proof (cinv_time s' Hi Hlt) as Tk. cbn [s_time sim_start] in A.
    destruct (nofZ_F L 0 ltac:(cbn; lia)) as (_ & E0). rewrite E0 in A. destruct Hi as (F0 & _).
    destruct (ktime_F (end_frame p) ltac:(lia)) as (_ & _ & N2). pose proof (ktime_mono (s_frame s' + 1) (end_frame p) ltac:(lia) ltac:(lia)). replace (IZR (end_frame p) / fval (fps p)) with (IZR (end_frame p) * d) by (unfold d; field; destruct (ck_fps L p Hp); lra).
    destruct d_facts as (D1 & _). pose proof m_pos. assert (0 <= IZR (end_frame p) * d) by (apply Rmult_le_pos; [apply IZR_le; lia|lra]). unfold e in *. lra.
  Qed.
  (** If the loop runs out of iterations, it has made that many, or one of them has not ended. *)
  Lemma loop_goes_on : forall fuel af sch k s, cinv s -> (s_frame s < end_frame p)%Z -> sim_loop svd uabs fuel af p sch k s = NoFuel ->
    exists n s', goes_on L svd uabs af p n s s' /\ (n = fuel \/ exists sc, advanceStep svd uabs af p sc s' = NoFuel).
  Proof.
    induction fuel as [|fuel IH]; intros af sch k s Hi Hlt H; cbn [sim_loop] in H; rewrite (proj2 (Z.ltb_lt _ _) Hlt) in H.
    { exists 0%nat, s. split; [now constructor|auto]. }
    destruct (advanceStep svd uabs af p (sch k) s) as [s1| |] eqn:E; cbn [bind] in H; [|discriminate|exists 0%nat, s; split; [now constructor|eauto]].
    destruct (s_exit s1) eqn:X; [discriminate|]. cbv zeta in H. destruct (cstep af (sch k) s s1 Hi Hlt E) as (I2 & F2 & A2 & _).
    destruct (at_end p (tick p s1)) eqn:AE; [discriminate|].
    assert (Hlt2 : (s_frame (tick p s1) < end_frame p)%Z). { assert (s_frame (tick p s1) <> end_frame p) by (intros K; apply A2 in K; discriminate). lia. }
    destruct (sim_loop svd uabs fuel af p sch (S k) (tick p s1)) as [r| |] eqn:E2; cbn [bind] in H; try discriminate.
    destruct (IH af sch (S k) _ I2 Hlt2 E2) as (n & s' & Q1 & Q2). exists (S n), s'. split; [econstructor; eauto|]. destruct Q2 as [->|Q2]; auto.
  Qed.
  End Par.
End Clock.
