(** * SpecGalilei: the same body in uniform motion. *)
From Coq Require Import Reals ZArith List Bool.
From Verif Require Import Num NumR Tools Lin Types Step.
Import ListNotations.
Local Open Scope R_scope.

Section Galilei.
  Context {G : Geo R}.
  (** Every particle gets the velocity [U] in addition. *)
  Definition set_off (U : TV) (s : St R) : St R :=
    let P := s_p s in
    with_p s (mkParticles (p_x P) (map (fun v => vadd v U) (p_v P)) (p_pic P) (p_flip P) (p_hist P) (p_F P) (p_B P) (p_tau P)).
End Galilei.
