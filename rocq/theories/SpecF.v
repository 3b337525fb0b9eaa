(** * SpecF: the real value of a double, and sensible clock settings in double precision. *)
From Coq Require Import ZArith Reals List Bool Floats.SpecFloat.
From Flocq Require Import Core BinarySingleNaN.
From Verif Require Import Num NumF Tools Lin Types Objects Transfer Step.
Local Open Scope R_scope.

(** The value of a finite double. *)
Definition fval (x : F) : R := SF2R radix2 x.
(** A double (normal, subnormal or zero) that is not an infinity or a NaN. *)
Definition ffin (x : F) : Prop := valid_binary 53 1024 x = true /\ is_finite_SF x = true.
(** A double that is not a NaN. *)
Definition fnum (x : F) : Prop := valid_binary 53 1024 x = true /\ is_nan_SF x = false.

Section SpecF.
  Variable L : Libm.
  Hint Extern 0 (Num F) => exact (NumF L) : typeclass_instances.
  Context {G : Geo F}.

  (** Frames at least 8 smallest steps apart; the whole simulated time is at most 2^52 smallest
      steps (45 seconds with the default min_dt of 1e-14); nothing overflows or underflows. *)
  Record clock_okF (p : Par F) : Prop := {
    ck_fps : ffin (fps p) /\ 0 < fval (fps p);
    ck_min : ffin (min_dt p) /\ bpow radix2 (-1000) <= fval (min_dt p);
    ck_end : (1 <= end_frame p <= 4294967295)%Z;
    ck_sep : 8 * fval (min_dt p) <= 1 / fval (fps p);
    ck_len : IZR (end_frame p) / fval (fps p) <= bpow radix2 52 * fval (min_dt p);
    ck_max : IZR (end_frame p) / fval (fps p) <= bpow radix2 1000;
    ck_cfl : ffin (nmul (cfl p) (dx p));
    ck_dtmax : fnum (dt_max p)
  }.

  (** [goes_on n s s']: n iterations of the main loop lead from s to s' and none of them is the
      last one. *)
  Inductive goes_on (svd : TM -> TM * TV * TM) (uabs : F -> F) (af : nat) (p : Par F) : nat -> St F -> St F -> Prop :=
  | go_0 : forall s, (s_frame s < end_frame p)%Z -> goes_on svd uabs af p 0 s s
  | go_S : forall sc n s s1 s2, (s_frame s < end_frame p)%Z -> advanceStep svd uabs af p sc s = Ok s1 -> s_exit s1 = false ->
      at_end p (tick p s1) = false -> goes_on svd uabs af p n (tick p s1) s2 -> goes_on svd uabs af p (S n) s s2.
End SpecF.
