(** * Lin: fixed-size vectors and matrices (Eigen's TV and TM).

    tools.hpp:38-50: TV/TM are 2D or 3D Eigen types chosen at compile time.  [Geo] abstracts over
    that choice; the two instances are [Geo2] and [Geo3].
    Simplification: Eigen's unrolled reductions may associate sums of three terms differently from
    the left-to-right sums here; this matters only for floating-point rounding and no binary64
    theorem depends on it. *)
From Coq Require Import ZArith List Bool.
From Verif Require Import Num.
Import ListNotations.
Local Open Scope num_scope.

Record V2 (A : Type) := mkV2 { v2_0 : A; v2_1 : A }.
Record V3 (A : Type) := mkV3 { v3_0 : A; v3_1 : A; v3_2 : A }.
Record M2 (A : Type) := mkM2 { m2_00 : A; m2_01 : A; m2_10 : A; m2_11 : A }.
Record M3 (A : Type) := mkM3 { m3_0 : V3 A; m3_1 : V3 A; m3_2 : V3 A }. (* rows *)
Arguments mkV2 {A}. Arguments v2_0 {A}. Arguments v2_1 {A}.
Arguments mkV3 {A}. Arguments v3_0 {A}. Arguments v3_1 {A}. Arguments v3_2 {A}.
Arguments mkM2 {A}. Arguments m2_00 {A}. Arguments m2_01 {A}. Arguments m2_10 {A}. Arguments m2_11 {A}.
Arguments mkM3 {A}. Arguments m3_0 {A}. Arguments m3_1 {A}. Arguments m3_2 {A}.

Class Geo (A : Type) : Type := {
  TV : Type;
  TM : Type;
  dim : nat;                              (* simulation.hpp:30-34 *)
  vget : TV -> nat -> A;
  vtab : (nat -> A) -> TV;
  mget : TM -> nat -> nat -> A;
  mtab : (nat -> nat -> A) -> TM
}.

Definition v3get {A} (v : V3 A) (k : nat) : A :=
  match k with O => v3_0 v | S O => v3_1 v | _ => v3_2 v end.

#[global] Instance Geo2 (A : Type) : Geo A | 10 := {|
  TV := V2 A; TM := M2 A; dim := 2;
  vget := fun v k => match k with O => v2_0 v | _ => v2_1 v end;
  vtab := fun f => mkV2 (f 0%nat) (f 1%nat);
  mget := fun m i j => match i, j with
                       | O, O => m2_00 m | O, _ => m2_01 m
                       | _, O => m2_10 m | _, _ => m2_11 m end;
  mtab := fun f => mkM2 (f 0%nat 0%nat) (f 0%nat 1%nat) (f 1%nat 0%nat) (f 1%nat 1%nat)
|}.

Definition Geo3 (A : Type) : Geo A := {|
  TV := V3 A; TM := M3 A; dim := 3;
  vget := v3get;
  vtab := fun f => mkV3 (f 0%nat) (f 1%nat) (f 2%nat);
  mget := fun m i j => match i with
                       | O => v3get (m3_0 m) j | S O => v3get (m3_1 m) j | _ => v3get (m3_2 m) j end;
  mtab := fun f => mkM3 (mkV3 (f 0%nat 0%nat) (f 0%nat 1%nat) (f 0%nat 2%nat))
                        (mkV3 (f 1%nat 0%nat) (f 1%nat 1%nat) (f 1%nat 2%nat))
                        (mkV3 (f 2%nat 0%nat) (f 2%nat 1%nat) (f 2%nat 2%nat))
|}.

Section Ops.
  Context {A : Type} {NA : Num A} {G : Geo A}.

  (** f 0 + f 1 + ... + f n *)
  Fixpoint sumto (n : nat) (f : nat -> A) : A :=
    match n with O => f O | S m => sumto m f + f (S m) end.
  Definition sumd (f : nat -> A) : A := sumto (pred dim) f.

  Definition vzero : TV := vtab (fun _ => #0).
  Definition vones : TV := vtab (fun _ => #1).
  Definition vadd (u v : TV) : TV := vtab (fun k => vget u k + vget v k).
  Definition vsub (u v : TV) : TV := vtab (fun k => vget u k - vget v k).
  Definition vscale (v : TV) (s : A) : TV := vtab (fun k => vget v k * s).       (* v * s *)
  Definition lscale (s : A) (v : TV) : TV := vtab (fun k => s * vget v k).       (* s * v *)
  Definition vdivs (v : TV) (s : A) : TV := vtab (fun k => vget v k / s).
  Definition vdot (u v : TV) : A := sumd (fun k => vget u k * vget v k).
  Definition vsqnorm (v : TV) : A := vdot v v.                                     (* squaredNorm() *)
  Definition vnorm (v : TV) : A := nsqrt (vsqnorm v).                              (* norm() *)
  Definition vsum (v : TV) : A := sumd (fun k => vget v k).                        (* sum() *)
  Definition vmap (f : A -> A) (v : TV) : TV := vtab (fun k => f (vget v k)).
  Definition vset (v : TV) (i : nat) (a : A) : TV :=
    vtab (fun k => if Nat.eqb k i then a else vget v k).

  (** Eigen's normalized(): v / sqrt(squaredNorm) if squaredNorm > 0, v otherwise. *)
  Definition vnormalized (v : TV) : TV :=
    if #0 <? vsqnorm v then vdivs v (nsqrt (vsqnorm v)) else v.

  Definition mzero : TM := mtab (fun _ _ => #0).
  Definition mident : TM := mtab (fun i j => if Nat.eqb i j then #1 else #0).
  Definition madd (a b : TM) : TM := mtab (fun i j => mget a i j + mget b i j).
  Definition msub (a b : TM) : TM := mtab (fun i j => mget a i j - mget b i j).
  Definition mscale (a : TM) (s : A) : TM := mtab (fun i j => mget a i j * s).
  Definition mlscale (s : A) (a : TM) : TM := mtab (fun i j => s * mget a i j).
  Definition mdivs (a : TM) (s : A) : TM := mtab (fun i j => mget a i j / s).
  Definition mvec (a : TM) (v : TV) : TV := vtab (fun i => sumd (fun k => mget a i k * vget v k)).
  Definition mmul (a b : TM) : TM := mtab (fun i j => sumd (fun k => mget a i k * mget b k j)).
  Definition mtr (a : TM) : TM := mtab (fun i j => mget a j i).                    (* transpose() *)
  Definition mouter (u v : TV) : TM := mtab (fun i j => vget u i * vget v j).      (* u * v^T *)
  Definition mdiag (v : TV) : TM := mtab (fun i j => if Nat.eqb i j then vget v i else #0).
  Definition mtrace (a : TM) : A := sumd (fun k => mget a k k).
  (** tools.hpp:94-106 selfDoubleDot *)
  Definition mdd (a : TM) : A := sumd (fun i => sumd (fun j => mget a i j * mget a i j)).

  (** Eigen determinant() of a fixed-size 2x2 / 3x3 matrix. *)
  Definition mdet (a : TM) : A :=
    match dim with
    | 2%nat => mget a 0 0 * mget a 1 1 - mget a 1 0 * mget a 0 1
    | _ => mget a 0 0 * (mget a 1 1 * mget a 2 2 - mget a 1 2 * mget a 2 1)
         - mget a 0 1 * (mget a 1 0 * mget a 2 2 - mget a 1 2 * mget a 2 0)
         + mget a 0 2 * (mget a 1 0 * mget a 2 1 - mget a 1 1 * mget a 2 0)
    end.

  (** Eigen inverse() of a fixed-size 2x2 / 3x3 matrix: adjugate divided by the determinant. *)
  Definition mcof3 (a : TM) (i j : nat) : A :=
    let i1 := Nat.modulo (i + 1) 3 in let i2 := Nat.modulo (i + 2) 3 in
    let j1 := Nat.modulo (j + 1) 3 in let j2 := Nat.modulo (j + 2) 3 in
    mget a i1 j1 * mget a i2 j2 - mget a i1 j2 * mget a i2 j1.
  Definition madj (a : TM) : TM :=
    match dim with
    | 2%nat => mtab (fun i j => match i, j with
                                | O, O => mget a 1 1 | O, _ => - mget a 0 1
                                | _, O => - mget a 1 0 | _, _ => mget a 0 0 end)
    | _ => mtab (fun i j => mcof3 a j i)
    end.
  Definition minv (a : TM) : TM := mdivs (madj a) (mdet a).
End Ops.
