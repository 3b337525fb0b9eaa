(** * GuardProofs: how simulate() ends. *)
From Coq Require Import Reals ZArith Lra Lia List Bool.
From Verif Require Import Num NumR Tools Lin Types Remesh Objects Transfer Plastic Step SpecTime SpecStep LinProofs ResProofs PlateProofs TimeProofs StepProofs.
Import ListNotations.

Section Guard.
  Context {A : Type} {NA : Num A} {G : Geo A}.
  Variable svd : TM -> TM * TV * TM.
  Variable uabs : A -> A.

  Lemma sim_cases : forall fuel af p init sch s st s' ev, simulate svd uabs fuel af p init sch s = Ok (st, s', ev) ->
    (st = NotInitialised \/ st = BadModel \/ st = SetupFailed) /\ s' = s /\ ev = [] \/
    exists ev1, sim_loop svd uabs fuel af p sch 0 (sim_start p s) = Ok (st, s', ev1) /\
      ev = (if save_sim p then [EvInfo; EvParticles (sim_start p s)] else []) ++ ev1 ++
           match st with Finished => if save_sim p then [EvTiming (s_step s')] else [] | _ => [] end.
  Proof.
    intros fuel af p init sch s st s' ev H. unfold simulate in H. destruct init; cbn [negb] in H; [|injection H as <- <- <-; auto].
    destruct (model_ok p); cbn [negb] in H; [|injection H as <- <- <-; auto]. destruct (s_exit s); [injection H as <- <- <-; auto|].
    right. cbv zeta in H. apply bind_Ok in H. destruct H as ([[st1 s1] ev1] & L & H). injection H as <- <- <-. exists ev1. auto.
  Qed.

  (** States from which frames are written carry no error flag. *)
  Definition clean (e : Ev A) : Prop := match e with EvParticles s | EvGrid s => s_exit s = false | EvInfo | EvTiming _ => False end.
  Lemma save_clean : forall p s, s_exit s = false -> Forall clean (save_frame p s).
  Proof. intros p s H. unfold save_frame. destruct (save_sim p); [|constructor]. destruct (save_grid p); repeat constructor; auto. Qed.
  Lemma tick_exit : forall p s, s_exit (tick p s) = s_exit s.
  Proof. intros. unfold tick. cbv zeta. destruct (nltb _ _); reflexivity. Qed.

  Lemma loop_exit : forall fuel af p sch k s st s' ev, s_exit s = false -> sim_loop svd uabs fuel af p sch k s = Ok (st, s', ev) ->
    Forall clean ev /\ (st = Finished /\ s_exit s' = false \/ st = Aborted /\ s_exit s' = true).
  Proof.
    induction fuel as [|fuel IH]; intros af p sch k s st s' ev Hs H; cbn [sim_loop] in H; destruct (s_frame s <? end_frame p)%Z.
    1: discriminate. 1, 3: injection H as <- <- <-; split; [constructor|auto].
    apply bind_Ok in H. destruct H as (s1 & E & H). destruct (s_exit s1) eqn:Ex; [injection H as <- <- <-; split; [constructor|auto]|].
    cbv zeta in H. assert (Ht : s_exit (tick p s1) = false) by (now rewrite tick_exit).
    assert (C1 : Forall clean (if (s_frame (tick p s1) =? s_frame s1)%Z then [] else save_frame p (tick p s1))).
    { destruct (_ =? _)%Z; [constructor|now apply save_clean]. }
    destruct (at_end p (tick p s1)).
    - injection H as <- <- <-. split; [|auto]. apply Forall_app. split; [auto|now apply save_clean].
    - apply bind_Ok in H. destruct H as ([[st2 s2] ev2] & E2 & H). cbn [fst snd] in H. injection H as <- <- <-.
      destruct (IH _ _ _ _ _ _ _ _ Ht E2) as (C2 & D). split; [|auto]. apply Forall_app. auto.
  Qed.
End Guard.

Lemma frames_cons : forall n, (0 <= n)%Z -> frames_upto n = 0%Z :: upfrom (0 + 1) (Z.to_nat n).
Proof.
  intros n H. unfold frames_upto, upfrom. replace (Z.to_nat (n + 1)) with (S (Z.to_nat n)) by lia. cbn [seq map]. f_equal.
  rewrite <- seq_shift, map_map. apply map_ext. intros. lia.
Qed.

Local Open Scope R_scope.
Section Gravity.
  Context {G : Geo R} {GL : GeoLaws G}.
  Variable svd : TM -> TM * TV * TM.
  Variable uabs : R -> R.

  Lemma tick_grav : forall p (s : St R), s_grav (tick p s) = s_grav s /\ s_gravf (tick p s) = s_gravf s.
  Proof. intros. unfold tick. cbv zeta. destruct (nltb _ _); auto. Qed.
  Lemma run_gravity : forall af p s0 l s1, 0 <= min_dt p -> run svd uabs af p s0 l s1 ->
    s_time s0 <= s_time s1 /\ s_gravf s1 = s_gravf s0 /\ (gravity_special p = false -> s_grav s1 = s_grav s0).
  Proof.
    intros af p s0 l s1 Hm H. induction H as [s|sc s0 s1 l s2 H Hr IH].
    - split; [lra|auto].
    - destruct IH as (T & Gf & Gn). destruct (step_clock svd uabs af p sc s0 s1 H) as (Et & _).
      destruct (step_dt_grav svd uabs af p sc s0 s1 H) as (Gf1 & Eg & sp & _ & Ed).
      destruct (tick_grav p s1) as (K1 & K2). destruct (tick_spec p s1) as (K3 & _).
      assert (min_dt p <= s_dt s1) by (rewrite Ed; apply dt_lower).
      split; [lra|]. split; [congruence|]. intros S. rewrite Gn, K1, Eg by auto. unfold gravity_of. now rewrite S.
  Qed.
  Lemma norm_scaled : forall (a b : TV) c, Rabs c <= 1 -> (forall k, (k < dim)%nat -> vget a k = c * vget b k) -> vnorm a <= vnorm b.
  Proof.
    intros a b c Hc H.
    assert (E : vsqnorm a = c * c * vsqnorm b).
    { replace a with (vscale b c); [|apply vext; intros k Hk; rewrite vget_scale, H by auto; lra].
      unfold vsqnorm. rewrite vdot_scale_l, vdot_scale_r. lra. }
    pose proof (vsqnorm_nonneg b). unfold vnorm. rewrite E. numR. apply sqrt_le_1_alt.
    assert (c * c <= 1). { apply Rabs_le_iv in Hc. nra. }
    nra.
  Qed.
End Gravity.
