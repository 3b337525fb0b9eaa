(** * Pbc: /repo/src/simulation/pbc.cpp *)
From Coq Require Import ZArith List Bool.
From Verif Require Import Num Tools Lin Types Transfer.
Import ListNotations.
Local Open Scope num_scope.

Section Pbc.
  Context {A : Type} {NA : Num A} {G : Geo A}.

  (** particles.x.push_back(x) and copies of v, F, Bmat, tau of particle [i]; pbc.cpp:15-19 and
      copies.  The arrays pic, flip and the history arrays are not extended. *)
  Definition push_copy (P : Particles A) (i : nat) (x : TV) : res (Particles A) :=
    let z := Z.of_nat i in
    v <- rd (p_v P) z ;; F <- rd (p_F P) z ;; B <- rd (p_B P) z ;; tau <- rd (p_tau P) z ;;
    Ok (mkParticles (p_x P ++ [x]) (p_v P ++ [v]) (p_pic P) (p_flip P) (p_hist P)
                    (p_F P ++ [F]) (p_B P ++ [B]) (p_tau P ++ [tau])).

  (** pbc.cpp:5-37: PBCAddParticles1D, two copies of every particle shifted by dx. *)
  Definition pbcAdd1D (p : Par A) (P : Particles A) (n : nat) : res (Particles A * Z) :=
    let incr := vset vzero 0 (dx p) in
    foldM (fun s i =>
             x <- rd (p_x (fst s)) (Z.of_nat i) ;;
             P1 <- push_copy (fst s) i (vadd x incr) ;;
             P2 <- push_copy P1 i (vsub x incr) ;;
             Ok (P2, (snd s + 2)%Z)) (seq 0 n) (P, 0%Z).

  (** pbc.cpp:46-77: position of the periodic image of a particle, if it gets one. *)
  Definition pbc_image (p : Par A) (sf : Z) (x : TV) : option TV :=
    let diff := Lx p - vget x 0 in
    if (diff <? #sf * dx p) && (diff >? #0) then Some (vset x 0 (- diff))
    else
      let diff := vget x 0 in
      if (diff <? #sf * dx p) && (diff >=? #0) then Some (vset x 0 (Lx p + diff))
      else None.

  (** pbc.cpp:39-87.  [sched]: the iterations in the order in which they enter the critical
      section.  Simplification: an iteration is executed as one block; in the code the read of
      particles.x[p] (:46) is outside the critical section and races with the push_backs of other
      threads, which reallocate the vector (recorded as a finding in DESIGN.md). *)
  Definition pbc_add_step (p : Par A) (sf : Z) (s : Particles A * Z) (i : nat)
    : res (Particles A * Z) :=
    x <- rd (p_x (fst s)) (Z.of_nat i) ;;
    match pbc_image p sf x with
    | Some x' => P' <- push_copy (fst s) i x' ;; Ok (P', (snd s + 1)%Z)
    | None => Ok s
    end.
  Definition pbcAdd (p : Par A) (sf : Z) (sched : list nat) (P : Particles A)
    : res (Particles A * Z) :=
    foldM (pbc_add_step p sf) sched (P, 0%Z).

  (** vec.erase(vec.end() - n, vec.end()): undefined if the vector has fewer than n elements. *)
  Definition erase_last {X} (n : Z) (l : list X) : res (list X) :=
    if (n <? 0)%Z || (Z.of_nat (length l) <? n)%Z then UB
    else Ok (firstn (length l - Z.to_nat n) l).

  (** pbc.cpp:89-106 *)
  Definition pbcDel (n : Z) (P : Particles A) : res (Particles A) :=
    x <- erase_last n (p_x P) ;; v <- erase_last n (p_v P) ;;
    F <- erase_last n (p_F P) ;; B <- erase_last n (p_B P) ;; tau <- erase_last n (p_tau P) ;;
    Ok (mkParticles x v (p_pic P) (p_flip P) (p_hist P) F B tau).
End Pbc.
