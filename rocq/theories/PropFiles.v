(** * PropFiles: C26, which files a simulation writes; for every arithmetic. *)
From Coq Require Import ZArith List Bool Lia.
From Verif Require Import Num Tools Lin Types Remesh Objects Transfer Rma Plastic Pbc Step Spec SpecStep SpecTime ResProofs TimeProofs GuardProofs.
Import ListNotations.

Lemma grid_files_app : forall {A : Type} {G : Geo A} (a b : list (Ev A)), grid_files (a ++ b) = grid_files a ++ grid_files b.
Proof. intros. unfold grid_files. apply flat_map_app. Qed.
Lemma res_inj : forall X (a b : X), Ok a = Ok b -> a = b.
Proof. intros X a b H. now injection H. Qed.
Section Files.
  Context {Ar : Type} {NA : Num Ar} {G : Geo Ar}.
  Variable svd : TM -> TM * TV * TM.
  Variable uabs : Ar -> Ar.
  Lemma save_files : forall (p : Par Ar) s, grid_files (save_frame p s) = (if save_grid p then particle_files (save_frame p s) else []) /\ (save_sim p = false -> save_frame p s = []).
  Proof. intros p s. unfold save_frame. destruct (save_sim p), (save_grid p); split; try reflexivity; discriminate. Qed.
  Lemma loop_files : forall fuel af p sch k s st s' ev, sim_loop svd uabs fuel af p sch k s = Ok (st, s', ev) ->
    grid_files ev = (if save_grid p then particle_files ev else []) /\ (save_sim p = false -> ev = []).
  Proof.
    induction fuel as [|fu IH]; intros af p sch k s st s' ev H; cbn [sim_loop] in H; destruct (s_frame s <? end_frame p)%Z; try discriminate.
    - apply res_inj in H. assert (ev = []) by congruence. subst ev. destruct (save_grid p); auto.
    - apply bind_Ok in H. destruct H as (s1 & _ & H). destruct (s_exit s1).
      { apply res_inj in H. assert (ev = []) by congruence. subst ev. destruct (save_grid p); auto. }
      cbv zeta in H. set (s2 := tick p s1) in *. set (ev1 := if (s_frame s2 =? s_frame s1)%Z then [] else save_frame p s2) in *.
      assert (E1 : grid_files ev1 = (if save_grid p then particle_files ev1 else []) /\ (save_sim p = false -> ev1 = [])).
      { unfold ev1. destruct (s_frame s2 =? s_frame s1)%Z; [destruct (save_grid p); auto|apply save_files]. }
      assert (J : forall e2, grid_files e2 = (if save_grid p then particle_files e2 else []) /\ (save_sim p = false -> e2 = []) ->
        grid_files (ev1 ++ e2) = (if save_grid p then particle_files (ev1 ++ e2) else []) /\ (save_sim p = false -> ev1 ++ e2 = [])).
      { intros e2 (A & B). destruct E1 as (A1 & B1). split; [|intros S; now rewrite (B1 S), (B S)]. rewrite grid_files_app, A1, A. unfold particle_files. rewrite flat_map_app. destruct (save_grid p); reflexivity. }
      destruct (at_end p s2).
      + apply res_inj in H. assert (ev = ev1 ++ save_frame p s2) by congruence. subst ev. apply J, save_files.
      + apply bind_Ok in H. destruct H as ([[a b] c] & E & H). apply res_inj in H. assert (ev = ev1 ++ c) by (cbn in H; congruence). subst ev. apply J. exact (IH _ _ _ _ _ _ _ _ E).
    - apply res_inj in H. assert (ev = []) by congruence. subst ev. destruct (save_grid p); auto.
  Qed.
End Files.
(** With save_grid, each particle file after the initial one is followed by a grid file of the same
    state; without it no grid file is written; without save_sim nothing is written. *)
Theorem C26_grid_files : forall {A : Type} {NA : Num A} (G : Geo A) svd uabs fuel af p init sch s st s' ev,
  simulate svd uabs fuel af p init sch s = Ok (st, s', ev) ->
  grid_files ev = (if save_grid p then tl (particle_files ev) else []) /\ (save_sim p = false -> ev = []).
Proof.
  intros A NA G svd uabs fuel af p init sch s st s' ev H. destruct (sim_cases svd uabs _ _ _ _ _ _ _ _ _ H) as [(_ & _ & ->)|(ev1 & L & ->)].
  { destruct (save_grid p); auto. }
  destruct (loop_files svd uabs _ _ _ _ _ _ _ _ _ L) as (E1 & E2). destruct (save_sim p) eqn:S.
  - split; [|discriminate]. rewrite !grid_files_app, E1. unfold particle_files. rewrite !flat_map_app.
    assert (T : grid_files (match st with Finished => [EvTiming (s_step s')] | _ => [] end) = [] /\ particle_files (match st with Finished => [EvTiming (s_step s')] | _ => [] end) = []) by (destruct st; split; reflexivity).
    destruct T as (T1 & T2). unfold particle_files in T2. rewrite T1, T2. cbn [flat_map app grid_files]. destruct (save_grid p); reflexivity.
  - rewrite (E2 eq_refl). destruct st; destruct (save_grid p); auto.
Qed.
Print Assumptions C26_grid_files.

(** A run that writes grid files, in binary64. *)
From Verif Require Import NumF ExamplesF ExStep ExSimF.
Definition grid_outcome (r : res (Stop * St F * list (Ev F))) : option (list Z) :=
  match r with Ok (_, _, ev) => Some (map (s_frame (A := F)) (grid_files ev)) | _ => None end.
Example C26_grid_ex : grid_outcome (run_sim false (@nofQ F nf0 (-95) 100)) = Some [1; 2; 3; 3]%Z.
Proof. vm_compute. reflexivity. Qed.
