(** * NumF: IEEE-754 binary64 as an instance of [Num].

    Arithmetic is Coq's [SpecFloat] with precision 53 and emax 1024 (round to nearest even), the
    format of [double].  libm functions other than sqrt and floor are a parameter [Libm]: a
    theorem over this instance is universally quantified over it. *)
From Coq Require Import ZArith List Bool Floats.SpecFloat.
From Verif Require Import Num.
Import ListNotations.
Local Open Scope Z_scope.

Definition F := spec_float.
Definition fprec := 53.
Definition femax := 1024.

Record Libm := {
  lm_cbrt : F -> F; lm_exp : F -> F; lm_log : F -> F; lm_pow : F -> F -> F;
  lm_sinh : F -> F; lm_cosh : F -> F; lm_tanh : F -> F; lm_asinh : F -> F;
  lm_sin : F -> F; lm_cos : F -> F; lm_atan2 : F -> F -> F
}.

Definition fofZ (z : Z) : F := binary_normalize fprec femax z 0 false.

(** Correctly rounded value of num/den (what a decimal literal denotes). *)
Definition fofQ (n : Z) (d : positive) : F :=
  match n with
  | Z0 => S754_zero false
  | Zpos p => let '(m, e, l) := SFdiv_core_binary fprec femax (Zpos p) 0 (Zpos d) 0 in
              binary_round_aux fprec femax false m e l
  | Zneg p => let '(m, e, l) := SFdiv_core_binary fprec femax (Zpos p) 0 (Zpos d) 0 in
              binary_round_aux fprec femax true m e l
  end.

Definition sfZ (s : bool) (m : positive) : Z := if s then Zneg m else Zpos m.

Definition ffloor (x : F) : F :=
  match x with
  | S754_finite s m e =>
      if 0 <=? e then x
      else let z := (sfZ s m) / (2 ^ (- e)) in
           if z =? 0 then S754_zero s else fofZ z
  | _ => x
  end.

Definition ftrunc (x : F) : option Z :=
  match x with
  | S754_zero _ => Some 0
  | S754_finite s m e =>
      if 0 <=? e then Some (sfZ s m * 2 ^ e) else Some (Z.quot (sfZ s m) (2 ^ (- e)))
  | _ => None
  end.

Definition NumF (L : Libm) : Num F := {|
  nadd := SFadd fprec femax; nsub := SFsub fprec femax; nmul := SFmul fprec femax;
  ndiv := SFdiv fprec femax; nopp := SFopp; nabs := SFabs; nsqrt := SFsqrt fprec femax;
  ncbrt := lm_cbrt L; nfloor := ffloor; nexp := lm_exp L; nlog := lm_log L; npow := lm_pow L;
  nsinh := lm_sinh L; ncosh := lm_cosh L; ntanh := lm_tanh L; nasinh := lm_asinh L;
  nsin := lm_sin L; ncos := lm_cos L; natan2 := lm_atan2 L;
  nltb := SFltb; nleb := SFleb; neqb := SFeqb; nofQ := fofQ; ntrunc := ftrunc
|}.

(** Sanity checks of the literal conversion (values computed independently from the IEEE layout). *)
Example lit_0_1 : fofQ 1 10 = S754_finite false 7205759403792794 (-56).
Proof. vm_compute. reflexivity. Qed.
Example lit_1em14 : fofQ 1 100000000000000 = S754_finite false 6338253001141147 (-99).
Proof. vm_compute. reflexivity. Qed.
Example lit_1em25 : fofQ 1 10000000000000000000000000 = S754_finite false 8711228593176025 (-136).
Proof. vm_compute. reflexivity. Qed.
Example lit_m3_2 : fofQ (-3) 2 = S754_finite true 6755399441055744 (-52).
Proof. vm_compute. reflexivity. Qed.
