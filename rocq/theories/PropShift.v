(** * PropShift: C76, the place of the origin does not matter. *)
From Coq Require Import Reals ZArith Lra Lia List Bool.
From Verif Require Import Num NumR Tools Lin Types Remesh Objects Transfer Rma Plastic Pbc Step Spec SpecStep SpecShift LinProofs ResProofs PloopProofs StepProofs PlasticModels TimeProofs ExStep ShiftProofs.
Import ListNotations.
Local Open Scope R_scope.

(** One step of the moved set-up is the moved step, whatever its outcome. *)
Theorem C76_step : forall G, two_or_three G -> forall svd uabs a p p' af sc s,
  scene_moved a p p' -> use_pbc p = false -> change_pos p = false -> (s_step s = 0%Z \/ length (s_mesh s) = dim) ->
  advanceStep svd uabs af p' sc (move_state a s) = outcome (move_state a) (advanceStep svd uabs af p sc s).
Proof. intros G HG svd uabs a p p' af sc s Sc U C M. pose proof (geolaws G HG) as GL. now apply step_shift. Qed.
Print Assumptions C76_step.

(** The whole simulation: the same way of ending, the moved final state, the same files with moved contents. *)
Theorem C76_simulation : forall G, two_or_three G -> forall svd uabs a p p' fuel af init sch s,
  scene_moved a p p' -> use_pbc p = false -> change_pos p = false -> (s_step s = 0%Z \/ length (s_mesh s) = dim) ->
  simulate svd uabs fuel af p' init sch (move_state a s) =
  outcome (fun r => (fst (fst r), move_state a (snd (fst r)), map (move_output a) (snd r))) (simulate svd uabs fuel af p init sch s).
Proof. intros G HG svd uabs a p p' fuel af init sch s Sc U C M. pose proof (geolaws G HG) as GL. now apply sim_shift. Qed.
Print Assumptions C76_simulation.

(** Level ground can be moved anywhere; the other terrains of the code stand at a fixed place. *)
Theorem C76_ground : forall G, two_or_three G -> forall (a : TV) y bc fric, obstacle_moved a (mkObj (Ground y) bc fric) (mkObj (Ground (y + vget a 1)) bc fric).
Proof.
  intros G HG a y bc fric. pose proof (geolaws G HG) as GL. split; [reflexivity|]. split; [reflexivity|]. intros X. cbn [ob_shape]. split; [|reflexivity].
  unfold inside. rewrite !move_get by (destruct gl_dim; lia). numR. now rewrite Rltb_shift.
Qed.
Print Assumptions C76_ground.

(** Two particles above ground at height -1 and left of a plate, moved by (3,-5). *)
Definition ground_p (y : R) : @Par R (Geo2 R) := with_scene (ex_p 1 false 1000 (e2 0 (-10)) false) (e2 20000000000 20000000000) [mkObj (Ground y) SlipFree (1/2)].
Definition right_plate (x lo : R) : @Plate R (Geo2 R) := mkPlate x pright NoSlip 0 lo (lo + 10) vzero vzero 1 0.
Example C76_ex : forall svd uabs, let a := e2 3 (-5) in let s := initial_state (ground_p (-10)) at_rest [right_plate 5 (-5)] in
  scene_moved a (ground_p (-10)) (ground_p (-15)) /\ use_pbc (ground_p (-10)) = false /\ change_pos (ground_p (-10)) = false /\ s_step s = 0%Z /\
  p_x (s_p (move_state a s)) = [e2 (1/2 + 3) (1/4 + -5); e2 (-1/2 + 3) (3/4 + -5)] /\ s_plates (move_state a s) = [mkPlate (5 + 3) pright NoSlip 0 (-5 + -5) (-5 + 10 + -5) vzero vzero 1 0] /\
  exists af s1, advanceStep svd uabs af (ground_p (-10)) rev_sched s = Ok s1.
Proof.
  intros svd uabs a s. split.
  { split; [reflexivity|]. split; [left; cbn; lra|]. constructor; [|constructor]. replace (-15) with (-10 + vget a 1) by (cbn; lra). apply (C76_ground (Geo2 R)). now left. }
  split; [reflexivity|]. split; [reflexivity|]. split; [reflexivity|]. split; [reflexivity|]. split; [reflexivity|].
  destruct (first_step (GL := geolaws _ (or_introl eq_refl)) svd uabs (ground_p (-10)) rev_sched s 2) as (af & H); auto; try (cbn; lra).
  - apply rev_valid.
  - apply ex_wf.
  - intros o X [<-|[]]. eexists. split; [reflexivity|]. intros _. eexists. reflexivity.
  - now apply no_plasticity.
  - intros x k Hx Hk. change (dx (ground_p (-10))) with 1.
    destruct Hx as [<-|[<-|[]]]; destruct k as [|[|k]]; cbn in Hk |- *; try lia; unfold Rabs; destruct (Rcase_abs _); lra.
  - intros k Hk H. exfalso. cbn in H. lra.
  - destruct (H af (le_n _)) as (s1 & E & _). now exists af, s1.
Qed.
