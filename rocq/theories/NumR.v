(** * NumR: the reals as an instance of [Num].

    Division by zero and square roots of negative numbers are total in Coq's reals; every theorem
    over this instance that passes through a division has the non-zero denominator either as a
    proved fact or as a hypothesis in its statement. *)
From Coq Require Import Reals ZArith Lra Lia List Bool.
From Flocq Require Import Core.Raux.
From Verif Require Import Num.
Local Open Scope R_scope.

Definition Rltb (a b : R) : bool := if Rlt_dec a b then true else false.
Definition Rleb (a b : R) : bool := if Rle_dec a b then true else false.
Definition Reqb (a b : R) : bool := if Req_EM_T a b then true else false.

(** Real counterparts of libm functions not in the standard library. *)
Definition Rcbrt (x : R) : R :=
  if Rlt_dec 0 x then exp (ln x / 3) else if Rlt_dec x 0 then - exp (ln (- x) / 3) else 0.
Definition Rpow' (x y : R) : R :=                (* std::pow for x >= 0 *)
  if Req_EM_T x 0 then (if Req_EM_T y 0 then 1 else 0) else exp (y * ln x).
Definition Rasinh (x : R) : R := ln (x + sqrt (x * x + 1)).
Definition Ratan2 (y x : R) : R :=
  if Rlt_dec 0 x then atan (y / x)
  else if Rlt_dec x 0 then (if Rle_dec 0 y then atan (y / x) + PI else atan (y / x) - PI)
  else if Rlt_dec 0 y then PI / 2 else if Rlt_dec y 0 then - PI / 2 else 0.

#[global] Instance NumR : Num R := {|
  nadd := Rplus; nsub := Rminus; nmul := Rmult; ndiv := Rdiv; nopp := Ropp;
  nabs := Rabs; nsqrt := sqrt; ncbrt := Rcbrt; nfloor := fun x => IZR (Zfloor x);
  nexp := exp; nlog := ln; npow := Rpow'; nsinh := sinh; ncosh := cosh; ntanh := tanh;
  nasinh := Rasinh; nsin := sin; ncos := cos; natan2 := Ratan2;
  nltb := Rltb; nleb := Rleb; neqb := Reqb;
  nofQ := fun n d => IZR n / IZR (Zpos d);
  ntrunc := fun x => Some (Ztrunc x)
|}.

(** ** Reflection of the comparisons. *)
Lemma Rltb_spec : forall a b, Bool.reflect (a < b) (Rltb a b).
Proof. intros; unfold Rltb; destruct (Rlt_dec a b); constructor; auto. Qed.
Lemma Rleb_spec : forall a b, Bool.reflect (a <= b) (Rleb a b).
Proof. intros; unfold Rleb; destruct (Rle_dec a b); constructor; auto. Qed.
Lemma Reqb_spec : forall a b, Bool.reflect (a = b) (Reqb a b).
Proof. intros; unfold Reqb; destruct (Req_EM_T a b); constructor; auto. Qed.

Lemma Rltb_true : forall a b, Rltb a b = true <-> a < b.
Proof. intros; destruct (Rltb_spec a b); split; intros; try lra; discriminate. Qed.
Lemma Rltb_false : forall a b, Rltb a b = false <-> b <= a.
Proof. intros; destruct (Rltb_spec a b); split; intros; try lra; try discriminate; auto. Qed.
Lemma Rleb_true : forall a b, Rleb a b = true <-> a <= b.
Proof. intros; destruct (Rleb_spec a b); split; intros; try lra; discriminate. Qed.
Lemma Rleb_false : forall a b, Rleb a b = false <-> b < a.
Proof. intros; destruct (Rleb_spec a b); split; intros; try lra; try discriminate; auto. Qed.
Lemma Reqb_true : forall a b, Reqb a b = true <-> a = b.
Proof. intros; destruct (Reqb_spec a b); split; intros; try lra; try discriminate; auto. Qed.
Lemma Reqb_false : forall a b, Reqb a b = false <-> a <> b.
Proof. intros; destruct (Reqb_spec a b); split; intros; try lra; try discriminate; auto; contradiction. Qed.

Lemma nofZ_R : forall z, nofZ (A := R) z = IZR z.
Proof. intros; unfold nofZ; simpl; lra. Qed.
Lemma nofQ_R : forall n d, nofQ (A := R) n d = IZR n / IZR (Zpos d).
Proof. reflexivity. Qed.

Lemma cmax_R : forall a b : R, cmax a b = Rmax a b.
Proof.
  intros; unfold cmax; simpl. destruct (Rltb_spec a b).
  - rewrite Rmax_right; lra.
  - rewrite Rmax_left; lra.
Qed.
Lemma cmin_R : forall a b : R, cmin a b = Rmin a b.
Proof.
  intros; unfold cmin; simpl. destruct (Rltb_spec b a).
  - rewrite Rmin_right; lra.
  - rewrite Rmin_left; lra.
Qed.

(** Turn the generic operations into the real ones. *)
Ltac numR :=
  change (@nadd R NumR) with Rplus in *;
  change (@nsub R NumR) with Rminus in *;
  change (@nmul R NumR) with Rmult in *;
  change (@ndiv R NumR) with Rdiv in *;
  change (@nopp R NumR) with Ropp in *;
  change (@nabs R NumR) with Rabs in *;
  change (@nsqrt R NumR) with sqrt in *;
  change (@ncbrt R NumR) with Rcbrt in *;
  change (@nexp R NumR) with exp in *;
  change (@nlog R NumR) with ln in *;
  change (@npow R NumR) with Rpow' in *;
  change (@nsinh R NumR) with sinh in *;
  change (@ncosh R NumR) with cosh in *;
  change (@ntanh R NumR) with tanh in *;
  change (@nasinh R NumR) with Rasinh in *;
  change (@nsin R NumR) with sin in *;
  change (@ncos R NumR) with cos in *;
  change (@natan2 R NumR) with Ratan2 in *;
  change (@nltb R NumR) with Rltb in *;
  change (@nleb R NumR) with Rleb in *;
  change (@neqb R NumR) with Reqb in *;
  change (@nfloor R NumR) with (fun x => IZR (Zfloor x)) in *;
  change (@nofQ R NumR) with (fun n d => IZR n / IZR (Zpos d)) in *;
  change (@ntrunc R NumR) with (fun x => Some (Ztrunc x)) in *;
  cbv beta in *.

(** Case split on every comparison in the goal. *)
Ltac rcase1 :=
  match goal with
  | |- context [Rltb ?a ?b] => destruct (Rltb_spec a b)
  | |- context [Rleb ?a ?b] => destruct (Rleb_spec a b)
  | |- context [Reqb ?a ?b] => destruct (Reqb_spec a b)
  end.
Ltac rcase := repeat (rcase1; cbn [negb andb orb] in *; try lra).
