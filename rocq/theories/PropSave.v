(** * Properties C50 and C52: crash consistency of the output directory, averages. *)
From Coq Require Import Reals ZArith Lra Lia List Bool.
From Verif Require Import Num NumR Tools Lin Types Remesh Objects Transfer Rma Plastic Pbc Step Save SpecObj SpecStep SpecTime Spec SpecMaterial LinProofs ResProofs
  PlateProofs ConsProofs TimeProofs GuardProofs Examples ExStep SaveProofs PropTime.
Import ListNotations.
Local Open Scope R_scope.

(** ** C50 *)
(** An output directory without files. *)
Definition fresh_directory : FS := mkFS (fun _ => None) (fun _ => []).
(** [crash ev fs]: the process dies while the events [ev] are being written, leaving [fs].
    Stream buffers may have been flushed to any extent. *)
Definition crash {A : Type} {G : Geo A} (ply plyg : St A -> list Z) (info : list Z) (timing : Z -> list Z) (ev : list (Ev A)) (fs : FS) : Prop :=
  exists rest, fs_run (flat_map (ops_of ply plyg frame_line info timing) ev) fresh_directory rest fs.

(** Every frame comes after all smaller ones. *)
Definition gapless (l : list Z) : Prop := forall a x b, l = a ++ x :: b -> (forall j, (0 <= j < x)%Z -> In j a) /\ (forall y, In y a -> (y <= x)%Z).
Lemma seq_split : forall n s a x b, seq s n = a ++ x :: b -> a = seq s (length a) /\ x = (s + length a)%nat.
Proof.
  induction n as [|n IH]; intros s a x b H; cbn in H; [destruct a; discriminate|]. destruct a as [|y a]; cbn in H; injection H as <- H.
  - cbn. split; auto; lia.
  - destruct (IH _ _ _ _ H) as (E1 & E2). cbn [length seq]. split; [now f_equal|lia].
Qed.
Lemma upto_split : forall n a x b, frames_upto n = a ++ x :: b -> exists m, x = Z.of_nat m /\ a = map Z.of_nat (seq 0 m).
Proof.
  intros n a x b H. unfold frames_upto in H. pose proof (map_eq_app _ _ _ _ H) as (l1 & l2 & E & <- & E2). destruct l2 as [|m l2]; [discriminate|]. cbn in E2. injection E2 as <- _.
  apply seq_split in E. destruct E as (E1 & E2). exists m. split; auto. rewrite E2, E1 at 1. reflexivity.
Qed.
Lemma in_upto : forall m j, In j (map Z.of_nat (seq 0 m)) <-> (0 <= j < Z.of_nat m)%Z.
Proof.
  intros m j. rewrite in_map_iff. split.
  - intros (i & <- & H). apply in_seq in H. lia.
  - intros H. exists (Z.to_nat j). split; [lia|]. apply in_seq. lia.
Qed.
Lemma gapless_upto : forall n, gapless (frames_upto n).
Proof.
  intros n a x b H. apply upto_split in H. destruct H as (m & -> & ->). split.
  - intros j Hj. now apply in_upto.
  - intros y Hy. apply in_upto in Hy. lia.
Qed.
Lemma gapless_twice : forall n, (0 <= n)%Z -> gapless (frames_upto n ++ [n]).
Proof.
  intros n Hn a x b H. destruct b as [|y b] using rev_ind.
  - apply app_inj_tail in H. destruct H as (<- & <-). unfold frames_upto. split; [intros j Hj|intros j Hj]; [|apply in_upto in Hj; lia]. apply in_upto. lia.
  - clear IHb. change (a ++ x :: b ++ [y]) with (a ++ (x :: b) ++ [y]) in H. rewrite app_assoc in H. apply app_inj_tail in H. destruct H as (H & _). now apply (gapless_upto n a x b).
Qed.

Section Crash.
  Context {Ar : Type} {NA : Num Ar} {G : Geo Ar}.
  Variable ply plyg : St Ar -> list Z.
  Variable info : list Z.
  Variable timing : Z -> list Z.
  Lemma crash_consistent : forall ev fs k, gapless (map s_frame (particle_files ev)) -> crash ply plyg info timing ev fs -> disk fs FLast = Some (frame_line k) ->
    forall j, (0 <= j < k)%Z -> exists f, In f (particle_files ev) /\ s_frame f = j /\ disk fs (FPart j) = Some (ply f).
  Proof.
    intros ev fs k Hg (rest & Hr) Hk j Hj.
    destruct (run_view _ _ _ _ Hr (fun _ => Absent)) as (done & Ed & Ag); [intros f; split; reflexivity|].
    assert (Fin : forall ev1 ev2 e a b, (ev = ev1 ++ ev2 /\ a = [] /\ e = EvInfo \/ ev = ev1 ++ e :: ev2 /\ ops_of ply plyg frame_line info timing e = a ++ b) ->
              done = flat_map (ops_of ply plyg frame_line info timing) ev1 ++ a ->
              exists f, In f (particle_files ev) /\ s_frame f = j /\ disk fs (FPart j) = Some (ply f)).
    { intros ev1 ev2 e a b He Hd.
      assert (V : forall f, vw_ops done f Absent = vw_ops a f (evs_view ply plyg info timing ev1 f Absent)) by (intros f; rewrite Hd, vw_ops_app, evs_view_ops; reflexivity).
      assert (Ea : exists b', ops_of ply plyg frame_line info timing e = a ++ b').
      { destruct He as [(_ & -> & ->)|(_ & He)]; [eexists; reflexivity|eauto]. }
      destruct Ea as (b' & Ea). destruct (part_views ply plyg info timing e a b' Ea FLast (evs_view ply plyg info timing ev1 FLast Absent)) as (PL & _).
      assert (Sub : forall s, In s (particle_files ev1) -> In s (particle_files ev)).
      { intros s Hs. destruct He as [(-> & _)|(-> & _)]; rewrite files_app; apply in_or_app; now left. }
      (* the frame named and the events complete before it *)
      assert (Lk : (forall i, (0 <= i < k)%Z -> In i (map s_frame (particle_files ev1))) /\ (forall s, a <> [] -> e = EvParticles s -> (k <= s_frame s)%Z)).
      { pose proof (Ag FLast) as AL. cbv beta in AL. rewrite V, Hk in AL.
        assert (Cur : forall s, e = EvParticles s -> a <> [] -> (forall i, (0 <= i < s_frame s)%Z -> In i (map s_frame (particle_files ev1))) /\ (forall y, In y (map s_frame (particle_files ev1)) -> (y <= s_frame s)%Z)).
        { intros s -> Na. destruct He as [(_ & -> & _)|(Ee & _)]; [now destruct Na|]. rewrite Ee in Hg. rewrite files_app in Hg. cbn [particle_files flat_map app] in Hg. rewrite map_app in Hg. cbn [map] in Hg. exact (Hg _ _ _ eq_refl). }
        destruct PL as [PL|[(_ & Na & s & Es & PL)|PL]]; [| |now destruct PL].
        - rewrite PL in AL. destruct (view_last ply plyg info timing ev1 Absent) as [(_ & Ev)|(l & s1 & El & Ev)]; rewrite Ev in AL; cbn in AL; destruct AL as (AL & _); [discriminate|].
          injection AL as AL. assert (K : k = s_frame s1) by (apply (frame_line_prefix _ _ []); rewrite app_nil_r; auto). subst k. split.
          + intros i Hi. assert (Gs : exists r, map s_frame (particle_files ev) = map s_frame l ++ s_frame s1 :: r).
            { destruct He as [(-> & _)|(-> & _)]; rewrite files_app, El, <- app_assoc, map_app; cbn; eauto. }
            destruct Gs as (r & Gs). rewrite Gs in Hg. rewrite El, map_app. apply in_or_app. left. exact (proj1 (Hg _ _ _ eq_refl) i Hi).
          + intros s Na Es. destruct (Cur s Es Na) as (_ & Le). apply Le. rewrite El, map_app. apply in_or_app. right. now left.
        - assert (K : k = s_frame s).
          { destruct PL as [PL|[PL|PL]]; rewrite PL in AL; cbn in AL.
            - destruct AL as (AL & _). injection AL as AL. now apply frame_line_nonempty in AL.
            - destruct AL as (x & AL & Ax). injection AL as <-. apply (frame_line_prefix _ _ (buf fs FLast)). auto.
            - destruct AL as (AL & _). injection AL as AL. apply (frame_line_prefix _ _ []). rewrite app_nil_r. auto. }
          subst k. destruct (Cur s Es Na) as (A & _). split; auto. intros s' _ Es'. rewrite Es in Es'. injection Es' as <-. lia. }
      destruct Lk as (L1 & L2). destruct (view_part ply plyg info timing ev1 j Absent (L1 j Hj)) as (f & F1 & F2 & F3). exists f. split; auto. split; auto.
      pose proof (Ag (FPart j)) as AP. cbv beta in AP. rewrite V in AP.
      destruct a as [|o a0]; [cbn in AP; rewrite F3 in AP; apply AP|].
      destruct (part_views ply plyg info timing e _ b' Ea (FPart j) (evs_view ply plyg info timing ev1 (FPart j) Absent)) as (_ & PP).
      rewrite (PP j eq_refl) in AP; [rewrite F3 in AP; apply AP|]. intros s Es. pose proof (L2 s ltac:(discriminate) Es). lia. }
    destruct (ops_prefix ply plyg info timing ev done rest Ed) as (ev1 & [(E & ev2 & Ee)|(e & ev2 & a & b & Ee & E1 & E2)]).
    - apply (Fin ev1 ev2 EvInfo [] []); auto. now rewrite app_nil_r.
    - apply (Fin ev1 ev2 e a b); auto.
  Qed.
  (** Executing a prefix without flushes. *)
  Lemma run_prefix : forall done rest s, fs_run (done ++ rest) s rest (fold_left (fun s o => fs_op o s) done s).
  Proof. induction done as [|o d IH]; intros rest s; cbn; [constructor|]. apply fs_exec. apply IH. Qed.
  Lemma agrees_ops : forall done v s, agrees v s -> agrees (fun f => vw_ops done f (v f)) (fold_left (fun s o => fs_op o s) done s).
  Proof. induction done as [|o d IH]; intros v s H; cbn; auto. exact (IH _ _ (agrees_op o v s H)). Qed.
  Lemma fresh_agrees : agrees (fun _ => Absent) fresh_directory.
  Proof. intros f. split; reflexivity. Qed.
End Crash.

(** Part of C50 that holds, in every arithmetic: all frames before the named one are complete. *)
Theorem C50_earlier_frames_complete_partial : forall {A : Type} {NA : Num A} (G : Geo A) svd uabs fuel af p init sch s st s' ev ply plyg info timing fs k,
  save_sim p = true -> st = Finished \/ st = Aborted ->
  simulate svd uabs fuel af p init sch s = Ok (st, s', ev) -> crash ply plyg info timing ev fs -> disk fs FLast = Some (frame_line k) ->
  forall j, (0 <= j < k)%Z -> exists f, In f (particle_files ev) /\ s_frame f = j /\ disk fs (FPart j) = Some (ply f).
Proof.
  intros A NA G svd uabs fuel af p init sch s st s' ev ply plyg info timing fs k Sv Hst H. apply crash_consistent.
  destruct (C26_frames_in_order G svd uabs fuel af p init sch s st s' ev Sv H Hst) as (B & [-> |(_ & ->)]); [apply gapless_upto|apply gapless_twice; lia].
Qed.
Print Assumptions C50_earlier_frames_complete_partial.

(** A run that ends normally leaves every frame complete and the last one named. *)
Theorem C50_after_a_normal_end : forall G, two_or_three G -> forall svd uabs fuel af p init sch s s' ev ply plyg info timing fs,
  clock_ok p -> save_sim p = true -> (1 <= end_frame p)%Z ->
  simulate svd uabs fuel af p init sch s = Ok (Finished, s', ev) ->
  fs_run (flat_map (ops_of ply plyg frame_line info timing) ev) fresh_directory [] fs ->
  disk fs FLast = Some (frame_line (end_frame p)) /\
  forall j, (0 <= j <= end_frame p)%Z -> exists f, In f (particle_files ev) /\ s_frame f = j /\ disk fs (FPart j) = Some (ply f).
Proof.
  intros G HG svd uabs fuel af p init sch s s' ev ply plyg info timing fs Ck Sv Ef H Hr.
  destruct (C26_frames_complete_ordered_on_time G HG svd uabs fuel af p init sch s s' ev Ck Sv Ef H) as (M & _).
  destruct (run_view _ _ _ _ Hr _ fresh_agrees) as (done & Ed & Ag). rewrite app_nil_r in Ed. subst done. split.
  - pose proof (Ag FLast) as A. cbv beta in A. rewrite evs_view_ops in A. destruct (view_last ply plyg info timing ev Absent) as [(E & _)|(l & f & E & V)].
    + rewrite E in M. symmetry in M. apply app_eq_nil in M. destruct M as (_ & M). discriminate.
    + rewrite V in A. destruct A as (A & _). rewrite A. rewrite E, map_app in M. cbn in M. apply app_inj_tail in M. destruct M as (_ & ->). reflexivity.
  - intros j Hj. destruct (view_part ply plyg info timing ev j Absent) as (f & F1 & F2 & F3).
    + rewrite M. apply in_or_app. left. unfold frames_upto. apply in_upto. lia.
    + exists f. split; auto. split; auto. pose proof (Ag (FPart j)) as A. cbv beta in A. rewrite evs_view_ops, F3 in A. apply A.
Qed.
Print Assumptions C50_after_a_normal_end.

(** Every run has a crash point at which the named frame is lost: the last frame, complete and
    named, is opened for writing again. *)
Theorem C50_named_frame_lost_refuted : forall G, two_or_three G -> forall svd uabs fuel af p init sch s s' ev ply plyg info timing,
  clock_ok p -> save_sim p = true -> (1 <= end_frame p)%Z ->
  simulate svd uabs fuel af p init sch s = Ok (Finished, s', ev) ->
  exists fs, crash ply plyg info timing ev fs /\ disk fs FLast = Some (frame_line (end_frame p)) /\ disk fs (FPart (end_frame p)) = Some [].
Proof.
  intros G HG svd uabs fuel af p init sch s s' ev ply plyg info timing Ck Sv Ef H.
  destruct (C26_frames_complete_ordered_on_time G HG svd uabs fuel af p init sch s s' ev Ck Sv Ef H) as (M & _).
  (* the second save of the last frame *)
  assert (Sp : forall (ev : list (Ev R)) l f, particle_files ev = l ++ [f] -> exists ev1 ev2, ev = ev1 ++ EvParticles f :: ev2 /\ particle_files ev1 = l).
  { clear. intros ev. induction ev as [|e ev IH] using rev_ind; intros l f E; [destruct l; discriminate|]. rewrite files_app in E. destruct e as [|t|t|n]; cbn [particle_files flat_map app] in E.
    1,3,4: rewrite app_nil_r in E; destruct (IH l f E) as (e1 & e2 & -> & X); exists e1; eexists; rewrite <- app_assoc; cbn; eauto.
    apply app_inj_tail in E. destruct E as (E & ->). exists ev, []. auto. }
  destruct (particle_files ev) as [|f l] eqn:E0 using rev_ind.
  { symmetry in M. apply app_eq_nil in M. destruct M as (_ & M). discriminate. }
  clear IHl. rewrite map_app in M. cbn in M. apply app_inj_tail in M. destruct M as (M & Mf).
  destruct (Sp ev l f E0) as (ev1 & ev2 & -> & E1).
  set (done := flat_map (ops_of ply plyg frame_line info timing) ev1 ++ [Open (FPart (s_frame f))]).
  assert (R : exists rest, flat_map (ops_of ply plyg frame_line info timing) (ev1 ++ EvParticles f :: ev2) = done ++ rest).
  { eexists. rewrite flat_map_app. unfold done. rewrite <- app_assoc. f_equal. cbn. reflexivity. }
  destruct R as (rest & R). exists (fold_left (fun s o => fs_op o s) done fresh_directory). split; [exists rest; rewrite R; apply run_prefix|].
  pose proof (agrees_ops done _ _ fresh_agrees) as Ag. split.
  - pose proof (Ag FLast) as A. cbv beta in A. unfold done in A. rewrite vw_ops_app, evs_view_ops in A. cbn [vw_ops fold_left vw_op file_eqb] in A.
    destruct (view_last ply plyg info timing ev1 Absent) as [(E & _)|(l' & f' & E & V)].
    + exfalso. rewrite E1 in E. rewrite E in M. unfold frames_upto in M. replace (Z.to_nat (end_frame p + 1)) with (S (Z.to_nat (end_frame p))) in M by lia. cbn in M. discriminate M.
    + rewrite V in A. destruct A as (A & _). unfold done. rewrite A. rewrite E1 in E. rewrite E, map_app in M. cbn in M. unfold frames_upto in M. replace (Z.to_nat (end_frame p + 1)) with (S (Z.to_nat (end_frame p))) in M by lia.
      rewrite seq_S, map_app in M. cbn in M. apply app_inj_tail in M. destruct M as (_ & ->). f_equal. f_equal. lia.
  - pose proof (Ag (FPart (end_frame p))) as A. cbv beta in A. rewrite <- Mf in *. unfold done in A. rewrite vw_ops_app in A. cbn [vw_ops fold_left vw_op file_eqb] in A. rewrite Z.eqb_refl in A. apply A.
Qed.
Print Assumptions C50_named_frame_lost_refuted.
(** A run that meets the hypotheses is [C26_ex]. *)
Example C50_ex : forall svd uabs ply plyg info timing, exists af s' ev fs, let p := ex_p 0 false 1000 vzero false in
  simulate svd uabs 1 af p true (fun _ => seq_sched) (ex_state p at_rest) = Ok (Finished, s', ev) /\ crash ply plyg info timing ev fs /\
  disk fs FLast = Some [49; 10]%Z /\ disk fs (FPart 1) = Some [] /\ exists f, In f (particle_files ev) /\ s_frame f = 0%Z /\ disk fs (FPart 0) = Some (ply f).
Proof.
  intros. destruct (C26_ex svd uabs) as (af & s' & ev & Ck & E & _). cbv zeta in *.
  destruct (C50_named_frame_lost_refuted _ (or_introl eq_refl) svd uabs _ _ _ _ _ _ _ _ ply plyg info timing Ck eq_refl ltac:(cbn; lia) E) as (fs & C & L & F).
  exists af, s', ev, fs. split; [exact E|]. split; [exact C|]. split; [exact L|]. split; [exact F|].
  exact (C50_earlier_frames_complete_partial _ svd uabs 1 af (ex_p 0 false 1000 vzero false) true _ _ _ _ _ ply plyg info timing fs 1%Z eq_refl (or_introl eq_refl) E C L 0%Z ltac:(lia)).
Qed.

(** ** C52 *)
Theorem C52_averages : forall G, two_or_three G -> forall s n, well_formed s n ->
  let P := s_p s in
  let F := fun i => nth i (p_F P) mzero in let tau := fun i => nth i (p_tau P) mzero in
  let J := fun i => volume_ratio (F i) (nth i (p_hist P) (mkHist 0 0 0 0 0 0)) in
  exists cauchy kirchhoff meanJ, computeAvgData P n = Ok (cauchy, kirchhoff, meanJ) /\
    meanJ = Rsum J (seq 0 n) / INR n /\
    forall V0, V0 * Rsum J (seq 0 n) <> 0 -> let V := fun i => V0 * J i in forall r c, (r < dim)%nat -> (c < dim)%nat ->
      mget kirchhoff r c = Rsum (fun i => V i * mget (tau i) r c) (seq 0 n) / Rsum V (seq 0 n) /\
      ((forall i, (i < n)%nat -> J i <> 0) -> mget cauchy r c = Rsum (fun i => V i * (mget (tau i) r c / J i)) (seq 0 n) / Rsum V (seq 0 n)).
Proof.
  intros G HG s n (C & _ & _) P F tau J. pose proof (geolaws G HG) as GL. fold P in C. destruct C.
  assert (Fold : forall l c k j, (forall i, In i l -> (i < n)%nat) -> exists c' k',
    foldM (fun s i => let '(c, k, j) := s in let z := Z.of_nat i in F <- rd (p_F P) z ;; tau <- rd (p_tau P) z ;; h <- rd (p_hist P) z ;;
                  let J := avg_J F h in Ok (madd c tau, madd k (mscale tau J), (j + J)%num)) l (c, k, j) = Ok (c', k', j + Rsum J l) /\
    forall r q, (r < dim)%nat -> (q < dim)%nat -> mget c' r q = mget c r q + Rsum (fun i => mget (tau i) r q) l /\ mget k' r q = mget k r q + Rsum (fun i => mget (tau i) r q * J i) l).
  { induction l as [|i l IH]; intros c k j Hl.
    - exists c, k. cbn. split; [f_equal; f_equal; ring|]. intros; split; ring.
    - cbn [foldM]. pose proof (Hl i (or_introl eq_refl)) as Hi.
      destruct (rd_lt _ (p_F P) i) as (Fi & EF & NF); [lia|]. destruct (rd_lt _ (p_tau P) i) as (ti & Et & Nt); [lia|]. destruct (rd_lt _ (p_hist P) i) as (hi & Eh & Nh); [lia|].
      rewrite EF, Et, Eh. cbn [bind]. cbv zeta.
      assert (EJ : avg_J Fi hi = J i) by (unfold J, F; rewrite (nth_error_nth _ _ _ NF), (nth_error_nth _ _ _ Nh); reflexivity).
      assert (ET : ti = tau i) by (unfold tau; now rewrite (nth_error_nth _ _ _ Nt)).
      rewrite EJ. destruct (IH (madd c ti) (madd k (mscale ti (J i))) (j + J i)%num) as (c' & k' & E & R); [intros; apply Hl; now right|]. exists c', k'. split.
      + eapply eq_trans; [exact E|]. f_equal. f_equal. cbn [Rsum]. numR. ring.
      + intros r q Hr Hq. destruct (R r q Hr Hq) as (A & B). rewrite A, B, ET. cbn [Rsum]. autorewrite with geo; auto. split; ring. }
  destruct (Fold (seq 0 n) mzero mzero (0 : R)) as (c & k & E & R). { intros i Hi. apply in_seq in Hi. lia. }
  exists (mdivs c (Rsum J (seq 0 n))), (mdivs k (Rsum J (seq 0 n))), (Rsum J (seq 0 n) / INR n). split.
  { unfold computeAvgData. rewrite nofZ_R. match goal with |- bind ?X _ = _ => replace X with (Ok (c, k, 0 + Rsum J (seq 0 n))) by (symmetry; exact E) end. cbn [bind]. rewrite Rplus_0_l. rewrite nofZ_R, <- INR_IZR_INZ. reflexivity. }
  split; [reflexivity|]. intros V0 Hv V r q Hr Hq. destruct (R r q Hr Hq) as (A & B).
  assert (Z : mget mzero r q = 0) by (autorewrite with geo; auto). rewrite Z, Rplus_0_l in A, B.
  assert (S : Rsum V (seq 0 n) = V0 * Rsum J (seq 0 n)) by (unfold V; apply Rsum_scal). rewrite S.
  assert (V0 <> 0 /\ Rsum J (seq 0 n) <> 0) by (split; intros X; apply Hv; rewrite X; ring).
  destruct H as (H0 & H1). split; [|intros HJ]; rewrite mget_divs by auto.
  - rewrite B. replace (Rsum (fun i => V i * mget (tau i) r q) (seq 0 n)) with (V0 * Rsum (fun i => mget (tau i) r q * J i) (seq 0 n)); [field; auto|].
    rewrite <- Rsum_scal. apply Rsum_ext. intros i _. unfold V. ring.
  - rewrite A. replace (Rsum (fun i => V i * (mget (tau i) r q / J i)) (seq 0 n)) with (V0 * Rsum (fun i => mget (tau i) r q) (seq 0 n)); [field; auto|].
    rewrite <- Rsum_scal. apply Rsum_ext. intros i Hi. unfold V. field. apply HJ. apply in_seq in Hi. lia.
Qed.
Print Assumptions C52_averages.
(** A uniform state is reproduced. *)
Theorem C52_uniform : forall G, two_or_three G -> forall s n, well_formed s n -> (0 < n)%nat -> forall (T : TM) J0, J0 <> 0 ->
  (forall i F t h, particle_at (s_p s) i F t h -> t = T /\ volume_ratio F h = J0) ->
  computeAvgData (s_p s) n = Ok (mlscale (/ J0) T, T, J0).
Proof.
  intros G HG s n W Hn T J0 HJ Hu. pose proof (geolaws G HG) as GL. destruct (C52_averages G HG s n W) as (c & k & j & E & Ej & R). cbv zeta in *.
  set (J := fun i => volume_ratio (nth i (p_F (s_p s)) mzero) (nth i (p_hist (s_p s)) (mkHist 0 0 0 0 0 0))) in *.
  assert (Pt : forall i, (i < n)%nat -> nth i (p_tau (s_p s)) mzero = T /\ J i = J0).
  { intros i Hi. destruct W as (C & _). destruct C. apply (Hu i (nth i (p_F (s_p s)) mzero)). repeat split; apply nth_error_nth'; lia. }
  assert (SJ : Rsum J (seq 0 n) = INR n * J0).
  { rewrite <- (seq_length n 0) at 2. rewrite <- Rsum_const. apply Rsum_ext. intros i Hi. apply in_seq in Hi. apply Pt. lia. }
  pose proof (lt_0_INR n Hn) as Hn'. rewrite SJ in *. specialize (R 1).
  rewrite E. f_equal. f_equal; [|rewrite Ej; field; lra].
  assert (Ne : 1 * (INR n * J0) <> 0) by (rewrite Rmult_1_l; apply Rmult_integral_contrapositive; split; lra).
  assert (SV : Rsum (fun i => 1 * J i) (seq 0 n) = INR n * J0) by (rewrite <- SJ; apply Rsum_ext; intros; ring).
  assert (S1 : forall x y r q, (forall i, (i < n)%nat -> x i = y) -> Rsum (fun i => 1 * J i * (mget (nth i (p_tau (s_p s)) mzero) r q * x i)) (seq 0 n) = INR n * (J0 * (mget T r q * y))).
  { intros x y r q Hx. rewrite <- (seq_length n 0) at 2. rewrite <- Rsum_const. apply Rsum_ext. intros i Hi. apply in_seq in Hi. destruct (Pt i) as (-> & ->); [lia|]. rewrite Hx by lia. ring. }
  f_equal; apply mext; intros r q Hr Hq; destruct (R Ne r q Hr Hq) as (K & C); unfold J in *.
  - rewrite C by (intros i Hi X; destruct (Pt i Hi) as (_ & Y); congruence). rewrite SV. autorewrite with geo; auto.
    unfold Rdiv at 2. rewrite (S1 (fun i => / volume_ratio (nth i (p_F (s_p s)) mzero) (nth i (p_hist (s_p s)) (mkHist 0 0 0 0 0 0))) (/ J0)); [|intros i Hi; destruct (Pt i Hi) as (_ & ->); auto]. field; lra.
  - rewrite K, SV. replace (Rsum (fun i => 1 * volume_ratio (nth i (p_F (s_p s)) mzero) (nth i (p_hist (s_p s)) (mkHist 0 0 0 0 0 0)) * mget (nth i (p_tau (s_p s)) mzero) r q) (seq 0 n)) with (Rsum (fun i => 1 * volume_ratio (nth i (p_F (s_p s)) mzero) (nth i (p_hist (s_p s)) (mkHist 0 0 0 0 0 0)) * (mget (nth i (p_tau (s_p s)) mzero) r q * 1)) (seq 0 n)) by (apply Rsum_ext; intros; ring).
    rewrite (S1 (fun _ => 1) 1) by auto. field; lra.
Qed.
Print Assumptions C52_uniform.
(** Two undeformed particles with the same stress. *)
Example C52_ex : forall p (T : @TM R (Geo2 R)), let s := ex_state p (two_particles vzero vzero mzero mzero T T) in
  well_formed s 2 /\ (forall i F t h, particle_at (s_p s) i F t h -> t = T /\ volume_ratio F h = 1).
Proof.
  intros p T s. split; [apply ex_wf|]. intros i F t h (A & B & C). destruct i as [|[|[|i]]]; cbn in A, B, C; try discriminate; injection A as <-; injection B as <-; injection C as <-;
  (split; [reflexivity|]); unfold volume_ratio; cbn; rewrite exp_0; lra.
Qed.
