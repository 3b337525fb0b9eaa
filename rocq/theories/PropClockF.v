(** * PropClockF: C84, time steps, frames and termination in double precision. *)
From Coq Require Import Reals ZArith Lra Lia List Bool Floats.SpecFloat.
From Flocq Require Import Core BinarySingleNaN.
From Verif Require Import Num NumF Tools Lin Types Remesh Objects Transfer Rma Plastic Pbc Step SpecObj SpecStep SpecTime Spec SpecF ResProofs PlateProofs
  TimeProofs GuardProofs FloatBase ClockFProofs ExamplesF ExStep ExSimF PropTime.
Import ListNotations.
Local Open Scope R_scope.

Lemma frames_of_upfrom : forall n, frames_upto (Z.of_nat n) = 0%Z :: upfrom 1 n.
Proof.
  intros n. unfold frames_upto, upfrom. replace (Z.to_nat (Z.of_nat n + 1)) with (S n) by lia. cbn [seq map Z.of_nat]. f_equal.
  rewrite <- seq_shift, map_map. apply map_ext. intros. lia.
Qed.

(** A step in double precision: its size is a number, at least min_dt; it does not exceed, unless min_dt does,
    the elastic limit, the rounded CFL limit and what is left until the next frame. *)
Theorem C84_step_size : forall (L : Libm) (G : Geo F) svd uabs af (p : Par F) sc s0 s1, let NF := NumF L in
  ffin (nmul (cfl p) (dx p)) -> fnum (dt_max p) -> ffin (min_dt p) ->
  ffin (nsub (nmul (frame_dt p) (nofZ (s_frame s0 + 1))) (s_time s0)) -> ffin (nsub (final_time p) (s_time s0)) ->
  advanceStep svd uabs af p sc s0 = Ok s1 ->
  let dt := s_dt s1 in
  ffin dt /\ fval (min_dt p) <= fval dt /\
  fval dt <= Rmax (fval (min_dt p)) (fval (nsub (nmul (frame_dt p) (nofZ (s_frame s0 + 1))) (s_time s0))) /\
  fval dt <= Rmax (fval (min_dt p)) (fval (nsub (final_time p) (s_time s0))) /\
  (ffin (dt_max p) -> fval dt <= Rmax (fval (min_dt p)) (fval (dt_max p))) /\
  exists speed, max_speed (p_v (s_p s0)) = Ok speed /\
    (nltb (nofQ 1 10000000000) (nabs speed) = true -> ffin (ndiv (nmul (cfl p) (dx p)) speed) ->
     fval dt <= Rmax (fval (min_dt p)) (fval (ndiv (nmul (cfl p) (dx p)) speed))).
Proof.
  intros L G svd uabs af p sc s0 s1 NF Hc Hd Hm Hk Ht H. cbv zeta. destruct (step_dt_grav svd uabs af p sc s0 s1 H) as (_ & _ & sp & Es & Ed).
  destruct (dt_F L p sp (s_time s0) (s_frame s0) Hc Hd Hm Hk Ht) as (A1 & A2 & A3 & A4 & A5 & A6). unfold NF. rewrite Ed. repeat (split; auto). exists sp. split; auto.
Qed.

(** The main loop ends: it never makes more than 4 final_time/min_dt steps without ending; so a simulation that
    gets that many ends normally or with an error, or one of its steps does not end by itself (laying out the
    grid, see C27). *)
Theorem C84_loop_ends : forall (L : Libm) (G : Geo F) svd uabs (p : Par F), let NF := NumF L in clock_okF L p ->
  (forall n af s s', goes_on L svd uabs af p n (sim_start p s) s' -> INR n * fval (min_dt p) <= 4 * (IZR (end_frame p) / fval (fps p))) /\
  forall fuel af init sch s, 4 * (IZR (end_frame p) / fval (fps p)) < INR fuel * fval (min_dt p) ->
    simulate svd uabs fuel af p init sch s = NoFuel ->
    exists n s' sc, goes_on L svd uabs af p n (sim_start p s) s' /\ advanceStep svd uabs af p sc s' = NoFuel.
Proof.
  intros L G svd uabs p NF Hp. split; [intros n af s s'; now apply goes_on_bound|].
  intros fuel af init sch s Hf H. unfold simulate in H. destruct init; [|discriminate]. destruct (model_ok p); [|discriminate]. destruct (s_exit s); [discriminate|]. cbn [negb] in H. cbv zeta in H.
  destruct (sim_loop svd uabs fuel af p sch 0 (sim_start p s)) as [[[? ?] ?]| |] eqn:E; cbn [bind] in H; try discriminate.
  assert (Hlt : (s_frame (sim_start p s) < end_frame p)%Z) by (cbn [sim_start s_frame]; destruct (ck_end L p Hp); lia).
  destruct (loop_goes_on L svd uabs p Hp fuel af sch 0 _ (cstart L p Hp s) Hlt E) as (n & s' & Go & [->|(sc & Q)]).
  - apply (goes_on_bound L svd uabs p Hp) in Go. lra.
  - exists n, s', sc. auto.
Qed.

(** The files of a simulation that ends normally, in double precision: frames 0,1,...,end_frame in this order, and
    the last one again; frame k is written within 1.2 min_dt of k/fps, up to a relative rounding error of 2^-50. *)
Theorem C84_frames : forall (L : Libm) (G : Geo F) svd uabs fuel af (p : Par F) init sch s s' ev, let NF := NumF L in
  clock_okF L p -> save_sim p = true -> simulate svd uabs fuel af p init sch s = Ok (Finished, s', ev) ->
  map s_frame (particle_files ev) = frames_upto (end_frame p) ++ [end_frame p] /\
  forall f, In f (particle_files ev) -> ffin (s_time f) /\
    Rabs (fval (s_time f) - IZR (s_frame f) / fval (fps p)) <= 12/10 * fval (min_dt p) + bpow radix2 (-50) * (IZR (s_frame f) / fval (fps p)).
Proof.
  intros L G svd uabs fuel af p init sch s s' ev NF Hp Sv H. apply sim_cases in H. destruct H as [[? _]|(ev1 & Lo & ->)]; [destruct H as [?|[?|?]]; discriminate|].
  destruct (ck_end L p Hp) as (He & _).
  destruct (loop_files_gen svd uabs p (cinv L p) (cot p) (fun af sc s0 s1 I Hl E => let '(conj a (conj b (conj c _))) := cstep L svd uabs p Hp af sc s0 s1 I Hl E in conj a (conj b c))
    fuel af sch 0%nat _ Finished s' ev1 Sv (cstart L p Hp s) ltac:(cbn [sim_start s_frame]; lia) Lo) as (O & n & _ & En & M).
  cbn [sim_start s_frame] in En, M. cbn [Z.add] in En, M.
  rewrite Sv, !files_app. cbn [particle_files flat_map app]. fold (particle_files ev1). rewrite app_nil_r. cbn [map sim_start s_frame]. rewrite M. split.
  - rewrite <- En. rewrite frames_of_upfrom. reflexivity.
  - intros f Hf.
    assert (Ef : forall k, IZR k / fval (fps p) = IZR k * (1 / fval (fps p))) by (intros k; unfold Rdiv; ring). rewrite Ef.
    destruct Hf as [<-|Hf]; [|exact (proj1 (Forall_forall _ _) O f Hf)].
    destruct (nofZ_F L 0 ltac:(cbn; lia)) as (F0 & E0). cbn [sim_start s_time s_frame]. split; [exact F0|]. replace (fval (@nofZ F NF 0)) with 0 by (symmetry; exact E0). rewrite !Rmult_0_l, Rmult_0_r, Rminus_0_r, Rabs_R0. pose proof (m_pos L p Hp). lra.
Qed.

(** The run of [ExSimF] meets the hypotheses. *)
Transparent par_sim run_sim.
Lemma fval_pos : forall m e, fval (S754_finite false m e) = IZR (Zpos m) * bpow radix2 e.
Proof. reflexivity. Qed.
Lemma par_sim_clock : forall musl flip, clock_okF libm0 (par_sim musl flip).
Proof.
  intros musl flip. set (p := par_sim musl flip).
  assert (E1 : fps p = S754_finite false 5629499534213120 (-49)) by (vm_compute; reflexivity).
  assert (E2 : min_dt p = S754_finite false 4951760157141521 (-92)) by (vm_compute; reflexivity).
  assert (V1 : fval (fps p) = 10) by (rewrite E1, fval_pos; cbn; lra).
  assert (V2 : 9/10000000000000 <= fval (min_dt p) <= 11/10000000000000) by (rewrite E2, fval_pos; cbn; lra).
  assert (N : IZR (end_frame p) = 3) by reflexivity.
  constructor.
  - split; [split; vm_compute; reflexivity|lra].
  - split; [split; vm_compute; reflexivity|]. apply Rle_trans with (bpow radix2 (-92)); [apply bpow_le; lia|]. rewrite E2, fval_pos. pose proof (bpow_gt_0 radix2 (-92)). rewrite <- (Rmult_1_l (bpow radix2 (-92))) at 1. apply Rmult_le_compat_r; lra.
  - vm_compute. split; discriminate.
  - rewrite V1. lra.
  - rewrite V1, N. replace (bpow radix2 52) with 4503599627370496 by (cbn; lra). lra.
  - rewrite V1, N. apply Rle_trans with (bpow radix2 0); [cbn; lra|apply bpow_le; lia].
  - split; vm_compute; reflexivity.
  - split; vm_compute; reflexivity.
Qed.
Lemma par_sim_vals : forall musl flip, fval (fps (par_sim musl flip)) = 10 /\ fval (min_dt (par_sim musl flip)) <= 11/10000000000000.
Proof.
  intros musl flip. set (p := par_sim musl flip).
  assert (E1 : fps p = S754_finite false 5629499534213120 (-49)) by (vm_compute; reflexivity).
  assert (E2 : min_dt p = S754_finite false 4951760157141521 (-92)) by (vm_compute; reflexivity).
  split; [rewrite E1, fval_pos; cbn; lra|rewrite E2, fval_pos; cbn; lra].
Qed.
Local Existing Instance nf0.
Lemma run_files : forall musl flip s ev, run_sim musl flip = Ok (Finished, s, ev) ->
  forall f, In f (particle_files ev) -> ffin (s_time f) /\
    Rabs (fval (s_time f) - IZR (s_frame f) / fval (fps (par_sim musl flip))) <= 12/10 * fval (min_dt (par_sim musl flip)) + bpow radix2 (-50) * (IZR (s_frame f) / fval (fps (par_sim musl flip))).
Proof.
  unfold run_sim. cbv zeta. intros musl flip s ev E.
  exact (proj2 (C84_frames libm0 (Geo2 F) svd_id SFabs 40 40 (par_sim musl flip) true (fun _ => seq_sched) (init_sim (par_sim musl flip)) s ev (par_sim_clock musl flip) eq_refl E)).
Qed.
Opaque par_sim run_sim.
Example C84_ex : exists s' ev, run_sim false (nofQ (-95) 100) = Ok (Finished, s', ev) /\
  map s_frame (particle_files ev) = [0; 1; 2; 3; 3]%Z /\
  forall f, In f (particle_files ev) -> Rabs (fval (s_time f) - IZR (s_frame f) / 10) <= 2/1000000000000.
Proof.
  destruct (outcome_run _ _ _ _ _ simF_outcome) as (s & ev & E & E1 & E2 & E3 & E4). exists s, ev. split; [exact E|]. split; [exact E4|].
  intros f Hf. assert (Fb : (0 <= s_frame f <= 3)%Z). { assert (I : In (s_frame f) (map s_frame (particle_files ev))) by (now apply in_map). rewrite E4 in I. cbn in I. lia. }
  destruct (run_files _ _ _ _ E f Hf) as (_ & B). destruct (par_sim_vals false (nofQ (-95) 100)) as (V1 & V2).
  rewrite V1 in B. destruct Fb as (_ & Fb). apply IZR_le in Fb. replace (bpow radix2 (-50)) with (/ 1125899906842624) in B by (cbn; lra). lra.
Qed.
(** The bound on the length is needed: from 128 s on, with min_dt = 1e-14, the clock can stand still: see
    [C27_binary64_clock_stalls_refuted]. *)
Print Assumptions C84_step_size.
Print Assumptions C84_loop_ends.
Print Assumptions C84_frames.
