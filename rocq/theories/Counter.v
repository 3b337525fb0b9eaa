(** * Counter: the count of yielding particles, printed as "Proj: n / Np". *)
From Coq Require Import List Arith Lia.
Import ListNotations.

(** simulation/deformation_update.cpp:14-66 (MUSL): [plastic_count] is a reduction variable, so every
    thread counts in a private copy that starts at 0 and the copies are added to the original (0)
    when the threads finish, in any order.  [threads]: for each thread, in the order in which the
    threads finish, the increments of the particles it handled, in the order it handled them. *)
Definition reduction_count (threads : list (list nat)) : nat :=
  fold_left (fun total mine => total + fold_left Nat.add mine 0) threads 0.

(** simulation/g2p.cpp:9-109 (USL): one counter shared by all threads; [plastic_count++] loads it,
    adds one and stores it, with no synchronisation.  In C++ the data race is undefined behaviour;
    this model is the machine code one gets (word-sized loads and stores are not torn), and each
    particle increments at most once.  A thread is resting with [n] increments still to do, or
    between load and store, holding the loaded value. *)
Inductive Worker := Resting (n : nat) | Holding (v n : nat).
Definition worker_step (shared : nat) (w : Worker) : option (nat * Worker) :=
  match w with
  | Resting (S n) => Some (shared, Holding shared n)
  | Resting 0 => None
  | Holding v n => Some (v + 1, Resting n)
  end.
(** One step of some thread. *)
Inductive race_step : nat * list Worker -> nat * list Worker -> Prop :=
| race : forall pre w post shared shared' w', worker_step shared w = Some (shared', w') ->
    race_step (shared, pre ++ w :: post) (shared', pre ++ w' :: post).
Inductive race_run : nat * list Worker -> nat * list Worker -> Prop :=
| race_nil : forall s, race_run s s
| race_cons : forall s1 s2 s3, race_step s1 s2 -> race_run s2 s3 -> race_run s1 s3.
(** The printed count [c] is possible if thread k has to do [nth k todo] increments. *)
Definition shared_count (todo : list nat) (c : nat) : Prop :=
  race_run (0, map Resting todo) (c, map (fun _ => Resting 0) todo).
