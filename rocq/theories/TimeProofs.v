(** * TimeProofs: time step selection, frames, termination. *)
From Coq Require Import Reals ZArith Lra Lia List Bool.
From Verif Require Import Num NumR Tools Lin Types Remesh Objects Transfer Rma Plastic Pbc Step SpecObj SpecStep SpecTime Spec LinProofs ResProofs PlateProofs.
Import ListNotations.
Local Open Scope R_scope.

Lemma cmin_R : forall a b : R, cmin a b = Rmin a b.
Proof. intros. unfold cmin. numR. unfold Rmin. destruct (Rltb_spec b a), (Rle_dec a b); lra. Qed.
Lemma cmax_R : forall a b : R, cmax a b = Rmax a b.
Proof. intros. unfold cmax. numR. unfold Rmax. destruct (Rltb_spec a b), (Rle_dec a b); lra. Qed.

(** ** Frames, over any number type *)
Definition upfrom (a : Z) (n : nat) : list Z := map (fun i => a + Z.of_nat i)%Z (seq 0 n).
Lemma upfrom_S : forall a n, upfrom a (S n) = a :: upfrom (a + 1) n.
Proof.
  intros. unfold upfrom. cbn [seq map]. rewrite Z.add_0_r. f_equal. rewrite <- seq_shift, map_map. apply map_ext. intros. lia.
Qed.
Lemma upfrom_In : forall a n z, In z (upfrom a n) -> (a <= z < a + Z.of_nat n)%Z.
Proof. intros a n z H. unfold upfrom in H. apply in_map_iff in H. destruct H as (i & <- & H). apply in_seq in H. lia. Qed.
Lemma upfrom_app : forall m n a, upfrom a (m + n) = upfrom a m ++ upfrom (a + Z.of_nat m) n.
Proof.
  induction m as [|m IH]; intros n a; cbn [Nat.add]; [cbn; f_equal; lia|]. rewrite !upfrom_S, IH. cbn [app]. do 2 f_equal. f_equal. lia.
Qed.
Section Frames.
  Context {Ar : Type} {NA : Num Ar} {G : Geo Ar}.
  Variable svd : TM -> TM * TV * TM.
  Variable uabs : Ar -> Ar.
  Lemma files_app : forall a b : list (Ev Ar), particle_files (a ++ b) = particle_files a ++ particle_files b.
  Proof. intros. unfold particle_files. apply flat_map_app. Qed.
  Lemma files_save : forall p s, save_sim p = true -> particle_files (save_frame p s) = [s].
  Proof. intros p s H. unfold save_frame. rewrite H. destruct (save_grid p); reflexivity. Qed.
  Lemma tick_frame : forall p s, s_frame (tick p s) = s_frame s \/ s_frame (tick p s) = (s_frame s + 1)%Z.
  Proof. intros. unfold tick. cbv zeta. destruct (nltb _ _); cbn; auto. Qed.
  (** The loop writes the frames after the current one, one by one, and may write the last
      frame again when it ends normally. *)
  Lemma loop_order : forall fuel af p sch k s st s' ev, save_sim p = true -> sim_loop svd uabs fuel af p sch k s = Ok (st, s', ev) ->
    exists n, s_frame s' = (s_frame s + Z.of_nat n)%Z /\ (s_frame s' <= Z.max (s_frame s) (end_frame p))%Z /\
      (map s_frame (particle_files ev) = upfrom (s_frame s + 1) n \/
       st = Finished /\ map s_frame (particle_files ev) = upfrom (s_frame s + 1) n ++ [s_frame s']).
  Proof.
    induction fuel as [|fuel IH]; intros af p sch k s st s' ev Sv H; cbn [sim_loop] in H; destruct (Z.ltb_spec (s_frame s) (end_frame p)).
    1: discriminate. 1, 3: injection H as <- <- <-; exists 0%nat; rewrite Z.add_0_r; repeat split; [lia|now left].
    apply bind_Ok in H. destruct H as (s1 & E & H). destruct (step_clock svd uabs _ _ _ _ _ E) as (_ & Ef & _).
    destruct (s_exit s1); [injection H as <- <- <-; exists 0%nat; rewrite Ef, Z.add_0_r; repeat split; [lia|now left]|].
    cbv zeta in H. set (s2 := tick p s1) in *. rewrite Ef in H.
    assert (T : exists m, s_frame s2 = (s_frame s + Z.of_nat m)%Z /\ (s_frame s2 <= end_frame p)%Z /\
       map s_frame (particle_files (if (s_frame s2 =? s_frame s)%Z then [] else save_frame p s2)) = upfrom (s_frame s + 1) m).
    { destruct (tick_frame p s1) as [T|T]; fold s2 in T; rewrite Ef in T.
      - exists 0%nat. rewrite T, Z.eqb_refl, Z.add_0_r. repeat split; lia.
      - exists 1%nat. destruct (Z.eqb_spec (s_frame s2) (s_frame s)); [lia|]. rewrite files_save by auto. cbn. rewrite T. repeat split; try lia. f_equal. lia. }
    destruct T as (m & T1 & T2 & T3). destruct (at_end p s2).
    - injection H as <- <- <-. exists m. split; [auto|]. split; [lia|]. right. split; [auto|]. rewrite files_app, map_app, T3, files_save by auto. reflexivity.
    - apply bind_Ok in H. destruct H as ([[st2 s3] ev2] & E2 & H). cbn [fst snd] in H. injection H as <- <- <-.
      destruct (IH _ _ _ _ _ _ _ _ Sv E2) as (n & N1 & N2 & N3). exists (m + n)%nat. rewrite files_app, map_app, T3. split; [lia|]. split; [lia|].
      assert (U : upfrom (s_frame s + 1) (m + n) = upfrom (s_frame s + 1) m ++ upfrom (s_frame s2 + 1) n).
      { rewrite upfrom_app. f_equal. f_equal. lia. }
      rewrite U, <- app_assoc. destruct N3 as [->|(-> & ->)]; auto.
  Qed.
End Frames.

Section Time.
  Context {G : Geo R} {GL : GeoLaws G}.
  Variable svd : TM -> TM * TV * TM.
  Variable uabs : R -> R.

  Lemma max_speed_spec : forall vs m, max_speed vs = Ok m -> 0 <= m /\ (exists v, In v vs /\ m = vnorm v) /\ forall v, In v vs -> vnorm v <= m.
  Proof.
    intros [|v r] m H; [discriminate|]. cbn in H. injection H as <-. split; [apply sqrt_pos|].
    set (f := fun m w => if nltb (vsqnorm m) (vsqnorm w) then w else m).
    assert (K : forall r v, (In (fold_left f r v) (v :: r)) /\ forall w, In w (v :: r) -> vsqnorm w <= vsqnorm (fold_left f r v)).
    { induction r0 as [|w r0 IH]; intros u; cbn [fold_left].
      - split; [now left|]. intros ? [<-|[]]; lra.
      - destruct (IH (f u w)) as [A B]. split.
        + destruct A as [A|A]; [|now right; right]. rewrite <- A. unfold f. destruct (nltb _ _); cbn; auto.
        + assert (C : vsqnorm u <= vsqnorm (f u w) /\ vsqnorm w <= vsqnorm (f u w)).
          { unfold f. numR. destruct (Rltb_spec (vsqnorm u) (vsqnorm w)); lra. }
          pose proof (B (f u w) (or_introl eq_refl)). intros z [<-|[<-|Hz]]; [lra|lra|]. apply B. now right. }
    destruct (K r v) as [A B]. split; [eauto|]. intros w Hw. unfold vnorm. apply sqrt_le_1_alt, B, Hw.
  Qed.
  Lemma max_speed_ex : forall vs, vs <> [] -> exists m, max_speed vs = Ok m.
  Proof. intros [|v r] H; [congruence|]. eexists; reflexivity. Qed.

  Lemma dt_of_spec : forall p speed time frame, dt_of p speed time frame =
    Rmax (Rmin (Rmin (if Rlt_dec (1/10000000000) (Rabs speed) then Rmin (cfl p * dx p / speed) (dt_max p) else dt_max p)
                 (frame_dt p * IZR (frame + 1) - time)) (final_time p - time)) (min_dt p).
  Proof.
    intros. unfold dt_of. cbv zeta. rewrite nofQ_R, !nofZ_R. numR. rewrite cmax_R, !cmin_R.
    destruct (Rltb_spec (1 / 10000000000) (Rabs speed)), (Rlt_dec (1 / 10000000000) (Rabs speed)); try lra; auto.
  Qed.

  Lemma dt_lower : forall p sp t f, min_dt p <= dt_of p sp t f.
  Proof. intros. rewrite dt_of_spec. apply Rmax_r. Qed.
  Lemma dt_frame : forall p sp t f, dt_of p sp t f <= Rmax (min_dt p) (frame_dt p * IZR (f + 1) - t).
  Proof.
    intros. rewrite dt_of_spec. rewrite Rmax_comm. apply Rle_max_compat_l.
    eapply Rle_trans; [apply Rmin_l|]. apply Rmin_r.
  Qed.
  Lemma dt_final : forall p sp t f, dt_of p sp t f <= Rmax (min_dt p) (final_time p - t).
  Proof. intros. rewrite dt_of_spec. rewrite Rmax_comm. apply Rle_max_compat_l. apply Rmin_r. Qed.
  Lemma dt_elastic : forall p sp t f, dt_of p sp t f <= Rmax (min_dt p) (dt_max p).
  Proof.
    intros. rewrite dt_of_spec. rewrite Rmax_comm. apply Rle_max_compat_l.
    eapply Rle_trans; [apply Rmin_l|]. eapply Rle_trans; [apply Rmin_l|]. destruct (Rlt_dec _ _); [apply Rmin_r|lra].
  Qed.
  Lemma dt_cfl : forall p sp t f, 0 <= cfl p * dx p -> 0 <= sp -> 1/10000000000 < sp -> dt_of p sp t f = min_dt p \/ dt_of p sp t f * sp <= cfl p * dx p.
  Proof.
    intros p sp t f Hc Hs Hs'. rewrite dt_of_spec. destruct (Rlt_dec _ _) as [_|Q]; [|rewrite Rabs_pos_eq in Q by lra; lra].
    match goal with |- Rmax ?a ?b = _ \/ _ => set (A := a); destruct (Rle_dec A b) as [L|L] end.
    - left. now apply Rmax_right.
    - right. rewrite Rmax_left by lra. assert (A <= cfl p * dx p / sp).
      { eapply Rle_trans; [apply Rmin_l|]. eapply Rle_trans; [apply Rmin_l|]. apply Rmin_l. }
      eapply Rle_trans; [apply Rmult_le_compat_r; [lra|eassumption]|]. right. field. lra.
  Qed.

  (** What a step does to the clock. *)
  Lemma step_dt : forall af p sc s0 s1, advanceStep svd uabs af p sc s0 = Ok s1 ->
    exists sp, max_speed (p_v (s_p s0)) = Ok sp /\ s_dt s1 = dt_of p sp (s_time s0) (s_frame s0).
  Proof.
    intros af p sc s0 s1 H. destruct (step_clock svd uabs af p sc s0 s1 H) as (_ & _ & _ & s' & E & ->).
    unfold updateDt in E. apply bind_Ok in E. destruct E as (sp & E & E'). exists sp. split; auto. injection E' as <-. reflexivity.
  Qed.

  Lemma tick_spec : forall p s, s_time (tick p s) = s_time s + s_dt s /\ s_exit (tick p s) = s_exit s /\
    ((s_frame (tick p s) = s_frame s + 1)%Z /\ frame_dt p * IZR (s_frame s + 1) - (s_time s + s_dt s) < min_dt p * (11/10) \/
     s_frame (tick p s) = s_frame s /\ min_dt p * (11/10) <= frame_dt p * IZR (s_frame s + 1) - (s_time s + s_dt s)).
  Proof.
    intros. unfold tick. cbv zeta. rewrite nofZ_R, nofQ_R. numR.
    destruct (Rltb_spec (frame_dt p * IZR (s_frame s + 1) - (s_time s + s_dt s)) (min_dt p * (11/10))); cbn [with_clock s_time s_frame s_exit]; (split; [reflexivity|]); (split; [reflexivity|]);
      [left|right]; split; auto; lra.
  Qed.
  Lemma at_end_spec : forall p s, at_end p s = true <-> Rabs (final_time p - s_time s) < min_dt p * (11/10) \/ final_time p < s_time s.
  Proof. intros. unfold at_end. rewrite nofQ_R. numR. now rewrite orb_true_iff, !Rltb_true. Qed.

  (** The clock invariant at the head of the main loop. *)
  Definition clock_inv (p : Par R) (s : St R) : Prop :=
    (0 <= s_frame s)%Z /\ 0 <= s_time s /\
    frame_dt p * IZR (s_frame s) - 11/10 * min_dt p < s_time s /\
    s_time s <= frame_dt p * IZR (s_frame s + 1) - 11/10 * min_dt p.

  Lemma frame_dt_R : forall p, frame_dt p = 1 / fps p.
  Proof. intros. unfold frame_dt. now rewrite nofZ_R. Qed.
  Lemma final_R : forall p, final_time p = IZR (end_frame p) * frame_dt p.
  Proof. intros. unfold final_time. now rewrite nofZ_R. Qed.

  Lemma step_inv : forall af p sc s0 s1, clock_ok p -> clock_inv p s0 -> (s_frame s0 < end_frame p)%Z -> advanceStep svd uabs af p sc s0 = Ok s1 ->
    let s2 := tick p s1 in
    clock_inv p s2 /\ s_time s0 + min_dt p <= s_time s2 /\
    (s_frame s2 = s_frame s0 \/ (s_frame s2 = s_frame s0 + 1)%Z /\ s_time s2 <= frame_dt p * IZR (s_frame s2)) /\
    (at_end p s2 = true <-> s_frame s2 = end_frame p) /\
    s_frame s1 = s_frame s0.
  Proof.
    intros af p sc s0 s1 (Hf & Hm & Hfd) (F0 & T0 & L & U) Hlt H s2.
    destruct (step_clock svd uabs af p sc s0 s1 H) as (Et & Ef & _). destruct (step_dt af p sc s0 s1 H) as (sp & _ & Ed).
    pose proof (dt_lower p sp (s_time s0) (s_frame s0)) as D1. pose proof (dt_frame p sp (s_time s0) (s_frame s0)) as D2. rewrite <- Ed in D1, D2.
    rewrite Rmax_right in D2 by lra. rewrite <- frame_dt_R in Hfd.
    destruct (tick_spec p s1) as (T2 & _ & Q). fold s2 in T2, Q. rewrite Et, Ef in *.
    assert (Fin : final_time p = frame_dt p * IZR (s_frame s0 + 1) + frame_dt p * IZR (end_frame p - s_frame s0 - 1)).
    { rewrite final_R, minus_IZR, minus_IZR, plus_IZR. lra. }
    rewrite plus_IZR in *.
    assert (0 < frame_dt p) by lra.
    destruct Q as [(Fr & Q)|(Fr & Q)].
    - split; [|split; [lra|]].
      + unfold clock_inv. rewrite Fr, !plus_IZR, T2. repeat split; try lia; try lra.
      + split; [right; split; auto; rewrite Fr, plus_IZR; lra|]. split; [|auto].
        rewrite at_end_spec, Fr, Fin, T2. destruct (Z.eq_dec (s_frame s0 + 1) (end_frame p)) as [E|NE].
        * split; auto. intros _. left. replace (end_frame p - s_frame s0 - 1)%Z with 0%Z by lia. rewrite Rmult_0_r, Rplus_0_r, Rabs_pos_eq by lra. lra.
        * split; [|lia]. assert (1 <= IZR (end_frame p - s_frame s0 - 1)) by (apply IZR_le; lia).
          assert (frame_dt p <= frame_dt p * IZR (end_frame p - s_frame s0 - 1)) by nra.
          intros [K|K]; [rewrite Rabs_pos_eq in K by lra; lra|lra].
    - split; [|split; [lra|]].
      + unfold clock_inv. rewrite Fr, !plus_IZR, T2. repeat split; try lia; try lra.
      + split; [auto|]. split; [|auto].
        rewrite at_end_spec, Fr, Fin, T2. split; [|lia].
        assert (0 <= IZR (end_frame p - s_frame s0 - 1)) by (apply IZR_le; lia).
        assert (0 <= frame_dt p * IZR (end_frame p - s_frame s0 - 1)) by nra.
        intros [K|K]; [rewrite Rabs_pos_eq in K by lra; lra|lra].
  Qed.

  (** *** Frames *)

  (** A frame file written on time and not after a fatal error. *)
  Definition on_time (p : Par R) (s : St R) : Prop :=
    frame_dt p * IZR (s_frame s) - 11/10 * min_dt p < s_time s <= frame_dt p * IZR (s_frame s) /\ s_exit s = false.

  Lemma loop_files : forall fuel af p sch k s st s' ev, clock_ok p -> save_sim p = true -> clock_inv p s -> (s_frame s < end_frame p)%Z ->
    sim_loop svd uabs fuel af p sch k s = Ok (st, s', ev) ->
    Forall (on_time p) (particle_files ev) /\ (forall e, In e ev -> e <> EvInfo /\ forall n, e <> EvTiming n) /\
    exists n, match st with
      | Finished => s_exit s' = false /\ s_frame s' = end_frame p /\ (s_frame s + Z.of_nat n = end_frame p)%Z /\
                    map s_frame (particle_files ev) = upfrom (s_frame s + 1) n ++ [end_frame p]
      | Aborted => s_exit s' = true /\ s_frame s' = (s_frame s + Z.of_nat n)%Z /\ (s_frame s' < end_frame p)%Z /\
                    map s_frame (particle_files ev) = upfrom (s_frame s + 1) n
      | _ => False end.
  Proof.
    induction fuel as [|fuel IH]; intros af p sch k s st s' ev Hc Hs Hi Hlt H; cbn [sim_loop] in H; rewrite (proj2 (Z.ltb_lt _ _) Hlt) in H; [discriminate|].
    apply bind_Ok in H. destruct H as (s1 & E & H).
    destruct (step_inv af p (sch k) s s1 Hc Hi Hlt E) as (I2 & T2 & F2 & A2 & F1).
    destruct (s_exit s1) eqn:X.
    { injection H as <- <- <-. split; [constructor|]. split; [intros ? []|]. exists 0%nat. rewrite Z.add_0_r, F1. auto. }
    cbv zeta in H. set (s2 := tick p s1) in *. assert (X2 : s_exit s2 = false) by (destruct (tick_spec p s1) as (_ & Q & _); fold s2 in Q; congruence).
    destruct I2 as (I20 & I2t & I2l & I2u). assert (I2 : clock_inv p s2) by (unfold clock_inv; auto).
    set (ev1 := if (s_frame s2 =? s_frame s1)%Z then [] else save_frame p s2) in *.
    assert (Ne : forall e, In e (save_frame p s2) -> e <> EvInfo /\ forall n, e <> EvTiming n).
    { intros e He. unfold save_frame in He. rewrite Hs in He. destruct (save_grid p); cbn in He; destruct He as [<-|He]; try (destruct He as [<-|[]]); try destruct He; split; discriminate. }
    assert (Ne1 : forall e, In e ev1 -> e <> EvInfo /\ forall n, e <> EvTiming n).
    { intros e He. unfold ev1 in He. destruct (s_frame s2 =? s_frame s1)%Z; [destruct He|auto]. }
    assert (Q1 : (s_frame s2 = s_frame s /\ ev1 = []) \/ (s_frame s2 = s_frame s + 1)%Z /\ ev1 = save_frame p s2 /\ on_time p s2).
    { unfold ev1. rewrite F1. destruct F2 as [F2|(F2 & L)]; [left|right]; rewrite F2; split; auto.
      - now rewrite Z.eqb_refl.
      - rewrite (proj2 (Z.eqb_neq _ _)) by lia. split; auto. split; auto. }
    destruct (at_end p s2) eqn:AE.
    - injection H as <- <- <-. assert (AE' : s_frame s2 = end_frame p) by now apply A2. rewrite files_app, files_save by auto.
      destruct Q1 as [(Q & _)|(Q & -> & O)]; [lia|]. rewrite files_save by auto.
      split; [constructor; [exact O|constructor; [exact O|constructor]]|]. split; [intros e He; apply in_app_iff in He; destruct He; auto|].
      exists 1%nat. split; auto. split; auto. split; [lia|]. rewrite <- AE', Q. unfold upfrom. cbn [seq map app Z.of_nat]. now rewrite Q, Z.add_0_r.
    - apply bind_Ok in H. destruct H as (r & E' & H). injection H as <- <- <-. destruct r as [[st s'] ev']. cbn [fst snd].
      assert (Hlt2 : (s_frame s2 < end_frame p)%Z). { assert (s_frame s2 <> end_frame p) by (intros K; apply A2 in K; discriminate). lia. }
      destruct (IH _ _ _ _ _ _ _ _ Hc Hs I2 Hlt2 E') as (O & N & n & M).
      rewrite files_app, map_app.
      destruct Q1 as [(Q & ->)|(Q & Ee & O1)].
      + split; [auto|]. split; [auto|]. exists n. rewrite Q in M. cbn. auto.
      + split; [rewrite Ee, files_save by auto; constructor; auto|]. split; [intros e He; apply in_app_iff in He; destruct He; auto|].
        exists (S n). rewrite Ee, files_save, upfrom_S by auto. rewrite Q in M. cbn [map app]. rewrite Q.
        destruct st; auto; destruct M as (M1 & M2 & M3 & M4); rewrite M4; repeat split; auto; lia.
  Qed.

  Lemma start_inv : forall p s, clock_ok p -> clock_inv p (sim_start p s).
  Proof.
    intros p s (Hf & Hm & Hd). rewrite <- frame_dt_R in Hd. unfold clock_inv, sim_start. cbn [s_frame s_time]. rewrite nofZ_R. cbn [Z.add]. repeat split; try lia; lra.
  Qed.

  (** Fuel of the model's loops. *)
End Time.
