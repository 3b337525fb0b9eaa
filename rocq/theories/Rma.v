(** * Rma: return mapping algorithms of modified Cam-Clay,
    /repo/src/plasticity_helpers/*.hpp *)
From Coq Require Import ZArith List Bool.
From Verif Require Import Num Tools.
Import ListNotations.
Local Open Scope num_scope.

Section Rma.
  Context {A : Type} {NA : Num A}.
  (** The unqualified call abs(det) / abs(y) of mcc_rma_explicit.hpp:71,
      mcc_rma_implicit_exponential.hpp:74 and mcc_rma_implicit_exponential_onevar.hpp:95 may
      resolve to the integer abs; it is an arbitrary function here. *)
  Variable uabs : A -> A.

  (** Result: p, q, whether exit was set, and the returned bool. *)
  Record Rma := mkRma { rm_p : A; rm_q : A; rm_exit : bool; rm_plastic : bool }.

  Definition e15 : A := nofQ 1 1000000000000000.       (* 1e-15 *)
  Definition e3 : A := 1//1000.                        (* 1e-3, 0.001 *)

  (** The final projection, e.g. mcc_rma_explicit.hpp:88-91: clamp p, solve for q. *)
  Definition mcc_clamp (M p0 beta p : A) : A := cmin (cmax p (- beta * p0)) p0.
  Definition mcc_q (M p0 beta p : A) : A := M * nsqrt ((p0 - p) * (beta * p0 + p)).

  (** One Newton step of the 3x3 scheme, mcc_rma_explicit.hpp:60-84 and
      mcc_rma_implicit_exponential.hpp:63-87; [pdet] is p0 resp. p00. *)
  Definition newton3 (K f_mu dkdp dldq k l r1 r2 y pdet p q dg : A) : A * A * A :=
    let J11 := #(-1) - K * dg * dkdp in
    let J13 := - K * k in
    let J22 := #(-1) - f_mu * dg * dldq in
    let J23 := - f_mu * l in
    let J31 := k in
    let J32 := l in
    let det := J11 * (- J32 * J23) + J13 * (- J31 * J22) in
    let '(p', q', dg') :=
      if uabs det <? 1//1000000 then
        (p - e3 * r1, q - e3 * r2, dg - e3 * y / (pdet * pdet))
      else
        (p - (- J32 * J23 * r1 + J32 * J13 * r2 - J22 * J13 * y) / det,
         q - (J31 * J23 * r1 - J31 * J13 * r2 - J11 * J23 * y) / det,
         dg - (- J31 * J22 * r1 - J11 * J32 * r2 + J11 * J22 * y) / det) in
    (p', if q' <? e15 then e15 else q', dg').

  (** mcc_rma_explicit.hpp:23-86; [n] iterations remain, [iter] is the loop counter. *)
  Fixpoint mcc_expl_loop (n : nat) (iter : Z) (M p0 beta K f_mu pt qt p q dg : A) : A * A :=
    match n with
    | O => (p, q)
    | S m =>
        let y := M * M * (p - p0) * (p + beta * p0) + q * q in
        let k := M * M * (beta * p0 + #2 * p - p0) in
        let l := #2 * q in
        let r1 := pt - p - K * dg * k in
        let r2 := qt - q - f_mu * dg * l in
        if (4 <? iter)%Z && (nabs y <? e3) && (nabs r1 <? e3) && (nabs r2 <? e3) then (p, q)
        else if (iter =? 39)%Z then
          if p0 >? 1//10 then (p, q) else (e15, e15)
        else
          let '(p', q', dg') := newton3 K f_mu (#2 * M * M) #2 k l r1 r2 y p0 p q dg in
          mcc_expl_loop m (iter + 1) M p0 beta K f_mu pt qt p' q' dg'
    end.

  (** mcc_rma_explicit.hpp:8-96 MCCRMAExplicit *)
  Definition MCCRMAExplicit (p q M p0 beta K f_mu : A) : Rma :=
    let y := M * M * (p - p0) * (p + beta * p0) + q * q in
    if y >? #0 then
      let '(p', _) := mcc_expl_loop 40 0 M p0 beta K f_mu p q p q #0 in
      let p'' := mcc_clamp M p0 beta p' in
      mkRma p'' (mcc_q M p0 beta p'') false true
    else mkRma p q false false.

  (** mcc_rma_explicit_onevar.hpp:39-71: returns p and whether exit was set.
      [damping_factor] (= 1) is dropped from products.  The iteration works on rescaled values. *)
  Fixpoint mcc_onevar_loop (n : nat) (iter : Z) (Msq p0 beta K mu pt qt dg : A) : A * bool :=
    match n with
    | O => (pt, false)    (* not reached: the last iteration breaks *)
    | S m =>
        let bm1 := beta - #1 in
        let p := (pt - Msq * K * dg * bm1 * p0) / (#1 + #2 * Msq * K * dg) in
        let q := qt / (#1 + #2 * mu * dg) in
        let y := Msq * (p - p0) * (p + beta * p0) + q * q in
        if (3 <? iter)%Z && (y <? 1//1000000) then (p, false)
        else if (iter =? 99)%Z then (p, true)
        else
          let dp := (#(-2) * Msq * K * pt - Msq * K * bm1 * p0)
                    / ((#1 + #2 * Msq * K * dg) * (#1 + #2 * Msq * K * dg)) in
          let dq := #(-2) * mu * qt / ((#1 + #2 * mu * dg) * (#1 + #2 * mu * dg)) in
          let dy := Msq * (#2 * p * dp + bm1 * p0 * dp) + #2 * q * dq in
          mcc_onevar_loop m (iter + 1) Msq p0 beta K mu pt qt (dg - y / dy)
    end.

  (** mcc_rma_explicit_onevar.hpp:8-85 MCCRMAExplicitOnevar *)
  Definition MCCRMAExplicitOnevar (p q M p0 beta mu K : A) : Rma :=
    let Msq := M * M in
    let y := Msq * (p - p0) * (p + beta * p0) + q * q in
    if y <=? #0 then mkRma p q false false
    else
      let p0_t := p0 in
      let sf := #1 / p0_t in
      let p0 := #1 in
      let '(p1, ex) := mcc_onevar_loop 100 0 Msq p0 beta (K * sf) (mu * sf) (p * sf) (q * sf) #0 in
      let p2 := mcc_clamp M p0 beta p1 in
      mkRma (p2 * p0_t) (mcc_q M p0 beta p2 * p0_t) ex true.

  (** mcc_rma_implicit_exponential.hpp:23-89: returns p, q and the current p0. *)
  Fixpoint mcc_impl_loop (n : nat) (iter : Z) (M p00 beta K xi f_mu epv pt qt p q dg p0 : A)
    : A * A * A :=
    match n with
    | O => (p, q, p0)
    | S m =>
        let delta_epv := (p - pt) / K in
        let p0 := p00 * nexp (- xi * (epv + delta_epv)) in
        let dp0dp := - xi / K * p0 in
        let ddp0dpp := xi * xi / (K * K) * p0 in
        let y := M * M * (p - p0) * (p + beta * p0) + q * q in
        let dydp := M * M * (#2 * p + (beta - #1) * (dp0dp * p + p0) + #2 * beta * p0 * dp0dp) in
        let ddydpp := M * M * (#2 + (beta - #1) * (p * ddp0dpp + #2 * dp0dp)
                               + #2 * beta * (dp0dp * dp0dp + p0 * ddp0dpp)) in
        let dydq := #2 * q in
        let r1 := pt - p - K * dg * dydp in
        let r2 := qt - q - f_mu * dg * dydq in
        if (4 <? iter)%Z && (nabs y <? e3) && (nabs r1 <? e3) && (nabs r2 <? e3) then (p, q, p0)
        else if (iter =? 39)%Z && negb (p0 >? 101//1000) then (e15, e15, p0)
        else
          let '(p', q', dg') := newton3 K f_mu ddydpp #2 dydp dydq r1 r2 y p00 p q dg in
          mcc_impl_loop m (iter + 1) M p00 beta K xi f_mu epv pt qt p' q' dg' p0
    end.

  (** mcc_rma_implicit_exponential.hpp:8-99 MCCRMAImplicitExponential *)
  Definition MCCRMAImplicitExponential (p q M p00 beta K xi f_mu epv : A) : Rma :=
    let p0 := cmax (1//100) (p00 * nexp (- xi * epv)) in
    let y := M * M * (p - p0) * (p + beta * p0) + q * q in
    if y >? #0 then
      let '(p', _, p0') := mcc_impl_loop 40 0 M p00 beta K xi f_mu epv p q p q #0 p0 in
      let p'' := mcc_clamp M p0' beta p' in
      mkRma p'' (mcc_q M p0' beta p'') false true
    else mkRma p q false false.

  (** limited_search_exponential.hpp:8-71 and limited_search_sinh.hpp:8-72, which differ only in
      the hardening law [p0of].  [right] is 1, 0 or -1.  [fuel] bounds the while loop: the result
      [SFuel] is never produced with fuel 65 (theorem [search_terminates]); [SInf] is the returned
      infinity. *)
  Inductive SearchRes := SOk (epv : A) (right : Z) | SInf | SFuel.
  Fixpoint search (fuel : nat) (p0of : A -> A) (epv epv_t : A) (K p_t beta : A) (right : Z)
    (tries f : Z) (scale delta : A) : SearchRes :=
    match fuel with
    | O => SFuel
    | S fu =>
        let test := epv - scale * delta in
        let pp0 := p0of test in
        let pp := K * (test - epv_t) + p_t in
        let val := #2 * pp + (beta - #1) * pp0 in
        let midpoint := (pp0 - beta * pp0) * (1//2) in
        if nabs (pp - midpoint) <=? 1//100000 then SOk test right
        else if ((right =? 1)%Z && ((pp <? midpoint) || (p_t <? midpoint)))
             || ((right =? 0)%Z && ((pp >? midpoint) || (p_t >? midpoint)))
        then SOk epv (-1)
        else if (sgn (epv_t - test)%num =? sgn val)%Z || (sgn (epv_t - test)%num =? 0)%Z
        then SOk test right
        else
          let scale' := scale * (1//2) in
          let tries' := (tries + 1)%Z in
          if negb (tries' =? 32)%Z
          then search fu p0of epv epv_t K p_t beta right tries' f scale' delta
          else if (f + 1 >? 1)%Z then SInf
          else search fu p0of epv epv_t K p_t beta right 0 (f + 1) #1 (delta * #(-1))
    end.
  Definition limited_search (p0of : A -> A) (epv epv_t delta K p_t beta : A) (right : Z)
    : SearchRes :=
    search 65 p0of epv epv_t K p_t beta right 0 0 #1 delta.

  (** Outcome of the one-variable implicit Newton loops: the early return at the apex, or the end
      of the loop with the current p and p0 and the exit flag. *)
  Inductive OneVar := Apex (p p0 : A) (ex : bool) | Done (p p0 : A) (ex : bool).

  (** mcc_rma_implicit_exponential_onevar.hpp:66-151 and mcc_rma_implicit_sinh_onevar.hpp:61-156.
      [p0of] / [dp0of]: hardening law and its derivative helper; [maxit]: number of iterations;
      [lastexit p0]: whether reaching the last iteration sets exit; [cabs]: the abs used in the
      convergence test. *)
  Fixpoint onevar_loop (n : nat) (iter : Z) (maxit : Z) (p0of dp0of : A -> A) (lastexit : A -> bool)
    (cabs : A -> A) (Msq beta K mu p_t q_t epv_t : A) (right : Z) (epv p p0 : A) (ex : bool)
    : OneVar :=
    match n with
    | O => Done p p0 ex
    | S m =>
        let midpoint := (p0 - beta * p0) * (1//2) in
        if nabs (p - midpoint) <? 1//10000 then Apex p p0 ex
        else
          let p := (epv - epv_t) * K + p_t in
          let p0 := p0of epv in
          let denom := #2 * K * Msq * p + Msq * (beta - #1) * K * p0 in
          let dg := (p_t - p) / denom in
          let q_denom := #1 + #2 * mu * dg in
          let q := q_t / q_denom in
          let y := Msq * (p - p0) * (p + beta * p0) + q * q in
          if (5 <? iter)%Z && (cabs y <? 1//10000) then Done p p0 ex
          else
            let ex := if (iter =? maxit - 1)%Z && lastexit p0 then true else ex in
            let dp := K in
            let dp0 := dp0of epv in
            let ddg := (- dp / denom)
                       - (p_t - p) * (#2 * K * Msq * dp + Msq * (beta - #1) * K * dp0)
                         / (denom * denom) in
            let dq := - q_t * #2 * mu * ddg / (q_denom * q_denom) in
            let dy := Msq * (dp - dp0) * (p + beta * p0) + Msq * (p - p0) * (beta * dp0 + dp)
                      + #2 * q * dq in
            match limited_search p0of epv epv_t (y / dy) K p_t beta right with
            | SOk epv' right' =>
                onevar_loop m (iter + 1) maxit p0of dp0of lastexit cabs
                            Msq beta K mu p_t q_t epv_t right' epv' p p0 ex
            | SInf | SFuel => Done p p0 true
            end
    end.

  (** Common tail of the two implicit one-variable schemes: :59-63 and :153-164
      (sinh: :54-58 and :158-169), early return :68-77 (sinh: :63-72). *)
  Definition onevar_run (nit : nat) (p0of dp0of : A -> A) (lastexit : A -> bool) (cabs : A -> A)
    (M beta K mu p q epv p0_t : A) : Rma :=
    let right := if p >? 1//2 * (#1 - beta * #1) then 1%Z else 0%Z in
    match onevar_loop nit 0 (Z.of_nat nit) p0of dp0of lastexit cabs (M * M) beta K mu p q epv
                      right epv p #1 false with
    | Apex p' p0' ex => mkRma (p' * p0_t) (mcc_q M p0' beta p' * p0_t) ex true
    | Done p' p0' ex =>
        let p'' := mcc_clamp M p0' beta p' in
        mkRma (p'' * p0_t) (mcc_q M p0' beta p'' * p0_t) ex true
    end.

  (** mcc_rma_implicit_exponential_onevar.hpp:9-165 *)
  Definition MCCRMAImplicitExponentialOnevar (p q M p00 beta mu K xi epv : A) : Rma :=
    let p0_t := p00 * nexp (- xi * epv) in
    let y := M * M * (p * p + (beta - #1) * p0_t * p - beta * p0_t * p0_t) + q * q in
    if y <=? #0 then mkRma p q false false
    else
      let sf := #1 / p0_t in
      let p00 := p00 * sf in
      let law := fun e => p00 * nexp (- xi * e) in
      onevar_run 30 law (fun e => - xi * law e) (fun _ => false) uabs
                 M beta (K * sf) (mu * sf) (p * sf) (q * sf) epv p0_t.

  (** mcc_rma_implicit_sinh_onevar.hpp:9-170 *)
  Definition MCCRMAImplicitSinhOnevar (p q M p00 beta mu K xi epv : A) : Rma :=
    let p0_t := cmax (1//100) (K * nsinh (- xi * epv + nasinh (p00 / K))) in
    let y := M * M * (p * p + (beta - #1) * p0_t * p - beta * p0_t * p0_t) + q * q in
    if y <=? #0 then mkRma p q false false
    else
      let sf := #1 / p0_t in
      let p0_min := 1//100 * sf in
      let p00 := p00 * sf in
      let K := K * sf in
      let helper := fun e => K * nsinh (- xi * e + nasinh (p00 / K)) in
      let law := fun e => cmax p0_min (helper e) in
      let dlaw := fun e =>
        let dh := - xi * K * ncosh (- xi * e + nasinh (p00 / K)) in
        if helper e >? p0_min then 1//2 * (dh + dh - p0_min) else 1//2 * (dh + p0_min - dh) in
      onevar_run 40 law dlaw (fun p0 => p0 >? p0_min) nabs
                 M beta K (mu * sf) (p * sf) (q * sf) epv p0_t.
End Rma.
Arguments Rma A : clear implicits.
Arguments SearchRes A : clear implicits.
Arguments OneVar A : clear implicits.
