(** * PropKernel2: C02, continued: second derivatives of the kernels. *)
From Coq Require Import Reals Lra Lia Bool.
From Coquelicot Require Import Coquelicot.
From Verif Require Import Num NumR Tools KernelProofs PropGrid.
Local Open Scope R_scope.

(** d2Ndu2 is the derivative of dNdu, except at the kinks of the linear kernel and at the points where the
    second derivative of the quadratic kernel jumps. *)
Theorem C02_kernel_second_derivative : forall (s : Spline) (u : R),
  (s = Deg1 -> u <> 0 /\ Rabs u <> 1) -> (s = Deg2 -> Rabs u <> 1/2 /\ Rabs u <> 3/2) ->
  is_derive (dNdu s : R -> R) u (d2Ndu2 s u).
Proof.
  intros [| |] u H1 H2; cbn [dNdu d2Ndu2].
  - destruct (H1 eq_refl) as (H0 & Ha). unfold d2N1. rewrite nofZ_R.
    assert (Hd : 0 < Rmin (Rabs u) (Rabs (Rabs u - 1))) by (apply Rmin_glb_lt; apply Rabs_pos_lt; lra).
    apply is_derive_ext_loc with (fun _ => dN1 u).
    2:{ exact (is_derive_const (K := R_AbsRing) (V := R_NormedModule) (dN1 u) u). }
    exists (mkposreal _ Hd). intros v Hv. unfold ball in Hv. cbn in Hv. unfold AbsRing_ball, abs, minus, plus, opp in Hv. cbn in Hv.
    pose proof (Rmin_l (Rabs u) (Rabs (Rabs u - 1))). pose proof (Rmin_r (Rabs u) (Rabs (Rabs u - 1))). unfold dN1. rewrite !nofZ_R. numR. match goal with |- ?a = ?b => change (@eq R a b) end.
    assert (Rabs v < 1 <-> Rabs u < 1) by (revert Hv H H3; unfold Rabs; repeat destruct (Rcase_abs _); intros; lra).
    assert (0 < v <-> 0 < u) by (revert Hv H H3; unfold Rabs; repeat destruct (Rcase_abs _); intros; lra).
    repeat match goal with |- context [Rltb ?a ?b] => destruct (Rltb_spec a b) end; try reflexivity; exfalso; lra.
  - destruct (H2 eq_refl). now apply dN2_derive.
  - apply dN3_derive.
Qed.
Example C02_second_ex : is_derive (dNdu Deg2 : R -> R) (1/4) (-2) /\ is_derive (dNdu Deg1 : R -> R) (1/4) 0.
Proof.
  split.
  - replace (-2) with (d2Ndu2 Deg2 (1/4) : R). { apply C02_kernel_second_derivative; [discriminate|]. intros _. rewrite Rabs_pos_eq by lra. lra. }
    cbn [d2Ndu2]. unfold d2N2. rewrite !nofZ_R, !nofQ_R. numR. rewrite Rabs_pos_eq by lra. cbv zeta. destruct (Rltb_spec (1/4) (1/2)); lra.
  - replace 0 with (d2Ndu2 Deg1 (1/4) : R) by (cbn [d2Ndu2]; unfold d2N1; now rewrite nofZ_R). apply C02_kernel_second_derivative; [|discriminate]. intros _. rewrite Rabs_pos_eq by lra. lra.
Qed.
Print Assumptions C02_kernel_second_derivative.
