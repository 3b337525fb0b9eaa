(** * PropThreadsExit: C83 continued, the abort flag. *)
From Coq Require Import Reals ZArith Lra Lia List Bool Permutation FunctionalExtensionality.
From Verif Require Import Num NumR Tools Lin Types Transfer Plastic Spec LinProofs ResProofs PloopProofs Threads SpecThreads ThreadProofs ThreadLoops ThreadParts ThreadNodes
  ExPlastic Examples StencilProofs GradProofs PropThreads PropGrid PropTransfer PropPlastic PropMpm ExMech ExStep RemeshExamples.
Import ListNotations.
Local Open Scope R_scope.

(** Two particles whose plastic update aborts, one on each of two threads (with MUSL): both threads write
    the flag without synchronisation, which is a data race; the particles and the flag still come out
    as in the serial loop when the two writes take place one after the other. *)
Theorem C83_exit_race : forall (A : Type) (NA : Num A) (G : Geo A) p pl axes nodes dt q0 q1 q0' q1' n0 n1 cnt ex,
  def_particle pl p axes nodes dt q0 = Ok (q0', (true, n0)) -> def_particle pl p axes nodes dt q1 = Ok (q1', (true, n1)) ->
  let start := Some (mkConf (mem_of (def_fill (pack [q0; q1])) nodes cnt ex) (map (thread_of (def_iter p pl axes dt)) [[0]; [1]]%nat) None) in
  deformationUpdate pl p axes nodes dt [0; 1]%nat (pack [q0; q1]) = Ok (pack [q0'; q1'], (true, (n0 + n1)%nat)) /\
  (exists s, reaches start s /\ race s) /\
  reaches start (Some (mkConf (mem_of (pack [q0'; q1']) nodes cnt true) [Done; Done] None)).
Proof.
  intros A NA G p pl axes nodes dt q0 q1 q0' q1' n0 n1 cnt ex E0 E1 start.
  split. { unfold deformationUpdate. apply (ploop_Ok _ [0; 1]%nat [q0; q1]); [reflexivity|]. exists [(q0', (true, n0)); (q1', (true, n1))]. split; [cbn [mapM bind]; rewrite E0; cbn [bind]; rewrite E1; reflexivity|]. unfold results. cbn. now rewrite Nat.add_0_r. }
  set (E := @Store A G Exit (VB true) Done).
  assert (R0 : exists n, alone any any E (def_iter p pl axes dt 0 Done) (pm nodes cnt ex [refilled q0; refilled q1]) n (pm nodes cnt ex [q0'; refilled q1])).
  { apply (def_run nodes cnt ex p pl axes dt 0 q0 (q0', (true, n0)) any any E [refilled q0; refilled q1] Done 0); [intros; split; exact I|intros; exact I|reflexivity|exact E0|]. apply al_end. }
  assert (R1 : exists n, alone any any E (def_iter p pl axes dt 1 Done) (pm nodes cnt ex [q0'; refilled q1]) n (pm nodes cnt ex [q0'; q1'])).
  { apply (def_run nodes cnt ex p pl axes dt 1 q1 (q1', (true, n1)) any any E [q0'; refilled q1] Done 0); [intros; split; exact I|intros; exact I|reflexivity|exact E1|]. apply al_end. }
  destruct R0 as (k0 & R0). destruct R1 as (k1 & R1).
  assert (S1 : reaches start (Some (mkConf (pm nodes cnt ex [q0'; q1']) [E; E] None))).
  { unfold start. rewrite fill_def. cbn [map thread_of fold_right]. eapply reaches_trans.
    - eapply (alone_reaches any any E _ _ _ _ R0 _ 0%nat). reflexivity.
    - cbn [set_nth]. eapply (alone_reaches any any E _ _ _ _ R1 [E; def_iter p pl axes dt 1 Done] 1%nat). reflexivity. }
  split.
  - exists (Some (mkConf (pm nodes cnt ex [q0'; q1']) [E; E] None)). split; auto. eexists _, 0%nat, 1%nat, E, E, Exit. repeat split; auto. left. reflexivity.
  - eapply reaches_trans; [exact S1|]. econstructor; [eapply (st_store _ _ _ 0%nat); [reflexivity|discriminate]|]. econstructor; [eapply (st_store _ _ _ 1%nat); [reflexivity|rewrite mset_same; discriminate]|].
    cbn [set_nth]. match goal with |- reaches (Some (mkConf ?m _ _)) (Some (mkConf ?m' _ _)) => replace m with m'; [constructor|] end.
    apply functional_extensionality. intros l. unfold mset, pm. destruct (Loc_eq_dec Exit l) as [<-|Ne]; [reflexivity|]. destruct l; cbn; auto. congruence.
Qed.
(** Two particles on a grid at rest with a constitutive update that always aborts. *)
Definition aborting : @Par R (Geo2 R) -> R -> @TM R (Geo2 R) -> @TM R (Geo2 R) -> Hist R -> res (PlOut R) := fun _ _ F tau h => Ok (mkPlOut F tau h 0 true).
Example C83_exit_ex : exists q0 q1, def_particle aborting (case_p VMVisc) case_axes case_nodes 1 (case_q (pt (1/2) (1/4)) mident) = Ok (q0, (true, 0%nat)) /\
  def_particle aborting (case_p VMVisc) case_axes case_nodes 1 (case_q (pt (-1/2) (3/4)) mident) = Ok (q1, (true, 0%nat)).
Proof.
  assert (K : forall a b, -1 <= a < 1 -> -1 <= b < 1 -> exists q, def_particle aborting (case_p VMVisc) case_axes case_nodes 1 (case_q (pt a b) mident) = Ok (q, (true, 0%nat))).
  { intros a b Ha Hb. destruct (case_stencil VMVisc a b Ha Hb) as (items & Es & Hz).
    assert (V : g_vgrad case_nodes items = Ok mzero).
    { apply fold_const. intros it Hi. rewrite (Hz it Hi). cbn [bind]. f_equal. destruct (it_g it). cbn. numR. f_equal; field. }
    eexists. unfold def_particle. cbn [q_x case_q]. rewrite Es. cbn [bind]. rewrite V. cbn [bind]. reflexivity. }
  destruct (K (1/2) (1/4)) as (q0 & H0); [lra|lra|]. destruct (K (-1/2) (3/4)) as (q1 & H1); [lra|lra|]. eauto.
Qed.
Print Assumptions C83_exit_race.
