(** * SpecNewton: associated flow and Newton's method, for C65. *)
From Coq Require Import Reals List.
From Coquelicot Require Import Coquelicot.
From Verif Require Import Num NumR Lin Types SpecPlastic.
Import ListNotations.
Local Open Scope R_scope.

(** Unknowns of the return mapping: pressure, shear stress, plastic multiplier. *)
Definition point : Type := R * R * R.
Definition towards (x y : point) (t : R) : point :=
  let '(p, q, l) := x in let '(p', q', l') := y in (p + t * (p' - p), q + t * (q' - q), l + t * (l' - l)).

(** Associated flow from the trial state (Pt, Qt) to the ellipse with preconsolidation pressure
    [pc]; [K], [f]: elastic moduli of pressure and shear stress. *)
Definition flow_equations (M beta pc K f Pt Qt : R) : list (point -> R) :=
  [ (fun x => let '(p, q, l) := x in Pt - p - K * l * Derive (fun a => cam_clay M beta pc a q) p);
    (fun x => let '(p, q, l) := x in Qt - q - f * l * Derive (fun b => cam_clay M beta pc p b) q);
    (fun x => let '(p, q, l) := x in cam_clay M beta pc p q) ].
Definition satisfied (Fs : list (point -> R)) (tol : R) (x : point) : Prop := forall F, In F Fs -> Rabs (F x) < tol.

(** [y] solves the equations linearised at [x]. *)
Definition newton_step (Fs : list (point -> R)) (x y : point) : Prop :=
  forall F, In F Fs -> F x + Derive (fun t => F (towards x y t)) 0 = 0.
Definition shift (x : point) (j : nat) : point :=
  let '(p, q, l) := x in match j with O => (p + 1, q, l) | 1%nat => (p, q + 1, l) | _ => (p, q, l + 1) end.
Definition partial (F : point -> R) (x : point) (j : nat) : R := Derive (fun t => F (towards x (shift x j) t)) 0.
Definition jacobian_det (Fs : list (point -> R)) (x : point) : R :=
  match Fs with
  | [F; G; H] =>
      let d := fun F j => partial F x j in
      d F 0%nat * (d G 1%nat * d H 2%nat - d G 2%nat * d H 1%nat)
      - d F 1%nat * (d G 0%nat * d H 2%nat - d G 2%nat * d H 0%nat)
      + d F 2%nat * (d G 0%nat * d H 1%nat - d G 1%nat * d H 0%nat)
  | _ => 0
  end.

(** The shear stress is kept above 1e-15. *)
Definition floor_q (x : point) : point := let '(p, q, l) := x in (p, Rmax q (1/1000000000000000), l).
(** Replacement for Newton's step where the determinant is tiny. *)
Definition damped_step (Fs : list (point -> R)) (pc : R) (x : point) : point :=
  let v := fun i => nth i Fs (fun _ => 0) x in let '(p, q, l) := x in
  (p - 1/1000 * v 0%nat, q - 1/1000 * v 1%nat, l - 1/1000 * v 2%nat / (pc * pc)).
(** Newton's iteration for [Fs], started at the trial state; [mag]: absolute value used in the test. *)
Definition newton_sequence (Fs : list (point -> R)) (mag : R -> R) (pc Pt Qt : R) (xs : nat -> point) : Prop :=
  xs 0%nat = (Pt, Qt, 0) /\
  forall k, (mag (jacobian_det Fs (xs k)) < 1/1000000 -> xs (S k) = floor_q (damped_step Fs pc (xs k))) /\
            (1/1000000 <= mag (jacobian_det Fs (xs k)) -> exists y, newton_step Fs (xs k) y /\ xs (S k) = floor_q y).
(** The iterate taken: the first from number 5 on that satisfies the equations within [tol], at
    latest number [last]. *)
Definition accepted (Fs : list (point -> R)) (tol : R) (last : nat) (xs : nat -> point) (k : nat) : Prop :=
  (k <= last)%nat /\ (forall j, (5 <= j < k)%nat -> ~ satisfied Fs tol (xs j)) /\
  (k = last \/ (5 <= k)%nat /\ satisfied Fs tol (xs k)).

(** ** Implicit hardening *)
(** The flow rule along the plastic volume strain [e]: pressure, multiplier and shear stress that
    solve the first two flow equations for the preconsolidation pressure [H e], and the yield
    function there.  [Pt], [Qt], [et]: trial state. *)
Section SpecPath.
  Variables (H : R -> R) (M beta K f Pt Qt et : R).
  Definition path_p (e : R) : R := Pt + K * (e - et).
  Definition path_slope (e : R) : R := Derive (fun a => cam_clay M beta (H e) a 0) (path_p e).
  Definition path_l (e : R) : R := (Pt - path_p e) / (K * path_slope e).
  Definition path_q (e : R) : R := Qt / (1 + 2 * f * path_l e).
  Definition path_y (e : R) : R := cam_clay M beta (H e) (path_p e) (path_q e).
  Definition regular (e : R) : Prop := K * path_slope e <> 0 /\ 1 + 2 * f * path_l e <> 0.

  (** One line search from [e] with side flag [side] to [e'] with [side']; [undecided] etc. as in C40. *)
  Definition searched (side : Z) (e step : R) (side' : Z) (e' : R) : Prop :=
    exists i, (i < 64)%nat /\ (forall j, (j < i)%nat -> undecided H K Pt beta et side (candidate e step j)) /\
      let c := candidate e step i in
      (e' = c /\ side' = side /\ (near_centre H K Pt beta et c \/ ~ wrong_side H K Pt beta et side c /\ admissible H K Pt beta et c)) \/
      (e' = e /\ side' = (-1)%Z /\ ~ near_centre H K Pt beta et c /\ wrong_side H K Pt beta et side c).
  Definition search_fails (side : Z) (e step : R) : Prop := forall i, (i < 64)%nat -> undecided H K Pt beta et side (candidate e step i).

  (** The pressure reached in the previous iteration is the centre of the ellipse, where the flow rule is vertical. *)
  Definition at_centre (es : nat -> R) (j : nat) : Prop := let e := es (pred j) in Rabs (path_p e - (1 - beta) / 2 * H e) < 1/10000.
  Definition converged (mag : R -> R) (es : nat -> R) (j : nat) : Prop := (6 <= j)%nat /\ mag (path_y (es j)) < 1/10000.
  (** [slope]: derivative used in Newton's step. *)
  Definition newton_path (slope : R -> R) (mag : R -> R) (es : nat -> R) (sides : nat -> Z) (k : nat) : Prop :=
    es 0%nat = et /\ sides 0%nat = (if Rlt_dec ((1 - beta) / 2) Pt then 1 else 0)%Z /\
    forall j, (j < k)%nat -> ~ at_centre es j /\ ~ converged mag es j /\
      exists step, (regular (es j) -> step = path_y (es j) / slope (es j)) /\ searched (sides j) (es j) step (sides (S j)) (es (S j)).
  (** How the iteration ends, after [k] of at most [nit] steps: pressure, and whether an error is raised. *)
  Definition path_end (slope : R -> R) (mag : R -> R) (nit : nat) (late : R -> Prop) (es : nat -> R) (sides : nat -> Z) (k : nat) (P' : R) (error : bool) : Prop :=
    let clamp := fun e => Rmin (Rmax (path_p e) (- beta * H e)) (H e) in
    ((k < nit)%nat /\ at_centre es k /\ P' = path_p (es (pred k)) /\ error = false) \/
    ((k < nit)%nat /\ converged mag es k /\ P' = clamp (es k) /\ error = false) \/
    ((k < nit)%nat /\ (exists step, (regular (es k) -> step = path_y (es k) / slope (es k)) /\ search_fails (sides k) (es k) step) /\ P' = clamp (es k) /\ error = true) \/
    (k = nit /\ P' = clamp (es (pred k)) /\ (error = true <-> late (es (pred k)))).
End SpecPath.

(** The derivative of the sinh law used by the solver, in units of [u]. *)
Definition sinh_derivative (K pc0 xi u e : R) : R :=
  let d := - xi * (K / u) * cosh (- xi * e + Rasinh (pc0 / K)) in
  if Rlt_dec (1/100 / u) (K / u * sinh (- xi * e + Rasinh (pc0 / K))) then d - 1/100 / u / 2 else 1/100 / u / 2.

(** ** Implicit hardening in three unknowns *)
(** As [flow_equations], for a preconsolidation pressure [H p] that follows the pressure; the flow is
    along the derivative of the yield function including the change of [H]. *)
Definition coupled_equations (H : R -> R) (M beta K f Pt Qt : R) : list (point -> R) :=
  [ (fun x => let '(p, q, l) := x in Pt - p - K * l * Derive (fun a => cam_clay M beta (H a) a q) p);
    (fun x => let '(p, q, l) := x in Qt - q - f * l * Derive (fun b => cam_clay M beta (H p) p b) q);
    (fun x => let '(p, q, l) := x in cam_clay M beta (H p) p q) ].
