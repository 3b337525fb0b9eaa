(** * ExHalf: first steps of clouds of any size on a half-integer raster, for concrete examples. *)
From Coq Require Import Reals ZArith Lra Lia List Bool Permutation.
From Verif Require Import Num NumR Tools Lin Types Remesh Objects Transfer Plastic Step Spec SpecStep SpecMech LinProofs ResProofs
  KernelProofs GridProofs StencilProofs GradProofs RemeshProofs PloopProofs StepProofs StepMech StepField SpecTime TimeProofs PlateProofs PlasticModels MpmProofs ExStep ExMech.
Import ListNotations.
Local Open Scope R_scope.
#[local] Existing Instance Geo2.
#[local] Instance GL2' : GeoLaws (Geo2 R) := geolaws _ (or_introl eq_refl).

(** All coordinates are at most 100, first ones multiples of 1/2, second ones 1/4 more than such. *)
Definition on_raster (x : @TV R (Geo2 R)) : Prop :=
  (forall k, (k < 2)%nat -> Rabs (vget x k) <= 100) /\ exists z0 z1 : Z, vget x 0 = IZR z0 / 2 /\ vget x 1 = 1/4 + IZR z1 / 2.

Section Half.
  Variable svd : @TM R (Geo2 R) -> @TM R (Geo2 R) * @TV R (Geo2 R) * @TM R (Geo2 R).
  Variable uabs : R -> R.
  Variables (sc : Sched) (flip : R) (musl : bool) (rate : R) (g : @TV R (Geo2 R)) (sp : bool) (l : list (@P1 R (Geo2 R))) (pls : list (@Plate R (Geo2 R))).
  Notation p := (ex_p flip musl rate g sp).
  Notation s0 := (initial_state p (pack l) pls).
  Hypothesis Ne : l <> [].
  Hypothesis Sz : (Z.of_nat (length l) <= 1000)%Z.
  Hypothesis Ra : forall q, In q l -> on_raster (q_x q).
  Hypothesis V : valid_sched sc.

  Lemma half_wf : well_formed s0 (length l).
  Proof. split; [|split]. - apply pack_consistent. - cbn [s_Np initial_state]. unfold pack; cbn [p_x]. now rewrite map_length. - lia. Qed.
  Theorem half_step : exists af0, forall af, (af0 <= af)%nat -> exists s1, advanceStep svd uabs af p sc s0 = Ok s1 /\ GridOk p (s_axes s1) /\
    regular_cloud p (s_axes s1) (p_x (s_p s0)) /\
    (forall k a, nth_error (s_axes s1) k = Some a -> (k < 2)%nat /\ (exists q, In q l /\ ax_c a = vget (q_x q) k - 2) /\ (forall q, In q l -> ax_c a <= vget (q_x q) k - 2)).
  Proof.
    destruct (first_step (GL := GL2') svd uabs p sc s0 (length l)) as (af0 & H); auto.
    - cbn. lra.
    - apply half_wf.
    - destruct l; [congruence|cbn; lia].
    - now apply no_obstacles.
    - now apply no_plasticity.
    - intros x k Hx Hk. cbn [s_p initial_state] in Hx. unfold pack in Hx; cbn [p_x] in Hx. apply in_map_iff in Hx. destruct Hx as (q & <- & Hq).
      change (dx p) with 1. rewrite Rmult_1_r. now apply (Ra q Hq).
    - intros k Hk Hc. exfalso. cbn in Hc. lra.
    - exists af0. intros af Haf. destruct (H af Haf) as (s1 & E & GO & IG). exists s1. split; [exact E|]. split; [exact GO|].
      assert (AX : forall k a, nth_error (s_axes s1) k = Some a -> (k < 2)%nat /\ (exists q, In q l /\ ax_c a = vget (q_x q) k - 2) /\ (forall q, In q l -> ax_c a <= vget (q_x q) k - 2)).
      { destruct (wf_pack _ _ half_wf) as (l0 & L & El & Nn & F). cbn [s_p initial_state] in El. assert (l0 = l) by (symmetry; now apply pack_inj). subst l0.
        destruct (step_run svd uabs af p sc s0 s1 l V El Nn F E) as [Rn].
        destruct (ru_remesh _ _ _ _ _ _ _ _ Rn) as (s' & Hr & Ha & _). rewrite (ru_saxes _ _ _ _ _ _ _ _ Rn), <- Ha.
        unfold remesh in Hr. cbn [use_pbc ex_p with_dt s_step s_p initial_state Z.eqb] in Hr.
        destruct (remeshFixedInit af p 2 (p_x (pack l))) as [am| |] eqn:Ei; cbn [bind] in Hr; try discriminate. apply Ok_inj in Hr. subst s'. cbn [s_axes with_grid].
        intros k a Hk. rewrite nth_error_map in Hk. destruct (nth_error am k) as [[a' m]|] eqn:Ek; [|discriminate]. cbn in Hk. assert (a' = a) by congruence. subst a'.
        assert (Hk2 : (k < 2)%nat).
        { assert (La : length am = 2%nat) by (unfold remeshFixedInit in Ei; apply mapM_length in Ei; rewrite seq_length in Ei; exact Ei). rewrite <- La. apply nth_error_Some; congruence. }
        split; auto. unfold remeshFixedInit in Ei. pose proof (mapM_seq_nth _ _ _ _ _ _ Ei Ek) as Hx.
        destruct (remeshInit_axis_spec p ltac:(cbn; lra) af _ k a m Hx) as ((M1 & M2 & M3 & M4) & _ & Hc & _).
        unfold remeshInit_axis in Hx. apply bind_Ok in Hx. destruct Hx as (mx & Emx & Hx). apply bind_Ok in Hx. destruct Hx as (mn & Emn & Hx). unfold ref_adjust in Hx.
        destruct (nltb (vget (grid_ref p) 0) _) eqn:Er; [exfalso|].
        { revert Er. rewrite nofZ_R. numR. destruct (Rltb_spec (vget (grid_ref p) 0) 10000000000) as [Hl|Hl]; [|discriminate]. cbn in Hl. lra. }
        apply bind_Ok in Hx. destruct Hx as (ax & _ & Hx). apply Ok_inj in Hx. apply pair_equal_spec in Hx. destruct Hx as (_ & Em). rewrite M3 in Hc. rewrite <- Em in Hc. cbn [ma_min] in Hc. change (dx p) with 1 in Hc.
        apply min_elem_spec in Emn. destruct Emn as (I & Mn).
        split.
        - apply in_map_iff in I. destruct I as (x & Ex & Hx). unfold pack in Hx; cbn [p_x] in Hx. apply in_map_iff in Hx. destruct Hx as (q & <- & Hq). exists q. split; auto. rewrite Hc, Ex. lra.
        - intros q Hq. assert (mn <= vget (q_x q) k) by (apply Mn; apply in_map_iff; exists (q_x q); split; auto; unfold pack; cbn [p_x]; now apply in_map). lra. }
      split; [|exact AX]. intros x Hx. split; [|discriminate]. intros items it Es Hit.
      assert (C : Covered p (s_axes s1) x) by (apply in_grid_covered; [cbn; lra|now apply IG]).
      destruct (stencil_cov p ltac:(cbn; lra) _ _ GO C) as (Es' & _ & S). rewrite Es in Es'. apply Ok_inj in Es'. subst items.
      rewrite (item_weight p ltac:(cbn; lra) _ _ _ GO C Hit). destruct (sl_at _ _ _ _ S it Hit) as (ijk & K & _).
      assert (L : length (s_axes s1) = 2%nat) by (exact (go_dim _ _ GO)).
      destruct (s_axes s1) as [|a [|b [|]]] eqn:Ea; try discriminate.
      destruct (K 0%nat a eq_refl) as (_ & Ka). destruct (K 1%nat b eq_refl) as (_ & Kb).
      destruct (AX 0%nat a eq_refl) as (_ & (qa & Hqa & Xa) & _). destruct (AX 1%nat b eq_refl) as (_ & (qb & Hqb & Xb) & _).
      cbn [s_p initial_state] in Hx. unfold pack in Hx; cbn [p_x] in Hx. apply in_map_iff in Hx. destruct Hx as (q & <- & Hq).
      destruct (Ra q Hq) as (_ & z0 & z1 & Z0 & Z1). destruct (Ra qa Hqa) as (_ & a0 & a1 & A0 & _). destruct (Ra qb Hqb) as (_ & b0 & b1 & _ & B1).
      rewrite weight2 by reflexivity. rewrite Ka, Kb, Xa, Xb, Z0, Z1, A0, B1. cbn [spline ex_p N dx].
      replace ((IZR z0 / 2 - (IZR a0 / 2 - 2 + IZR (ijk 0%nat) * 1)) / 1) with (IZR (z0 - a0 + 4 - 2 * ijk 0%nat) / 2) by (rewrite !minus_IZR, plus_IZR, minus_IZR, mult_IZR; field).
      replace ((1 / 4 + IZR z1 / 2 - (1 / 4 + IZR b1 / 2 - 2 + IZR (ijk 1%nat) * 1)) / 1) with (IZR (z1 - b1 + 4 - 2 * ijk 1%nat) / 2) by (rewrite !minus_IZR, plus_IZR, minus_IZR, mult_IZR; field).
      destruct (N2_half (z0 - a0 + 4 - 2 * ijk 0%nat)) as [->|H0]; [left; ring|]. destruct (N2_half (z1 - b1 + 4 - 2 * ijk 1%nat)) as [->|H1]; [left; ring|]. right. nra.
  Qed.
End Half.
