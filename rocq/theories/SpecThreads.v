(** * SpecThreads: what it means that a parallel loop runs correctly.  Read with Threads.v (the machine). *)
From Coq Require Import ZArith List Bool.
From Verif Require Import Num Lin Types Transfer Threads.
Import ListNotations.

Section SpecThreads.
  Context {A : Type} {G : Geo A}.

  (** [inevitably Q s]: whatever the scheduler does from [s], all threads finish after finitely many
      steps, in a memory that satisfies [Q].  So no schedule reaches an access outside an array, an
      undefined operation or a deadlock. *)
  Inductive inevitably (Q : Mem A -> Prop) : option (Conf A) -> Prop :=
  | inev_now : forall m ts lk, Forall (eq Done) ts -> Q m -> inevitably Q (Some (mkConf m ts lk))
  | inev_later : forall s, (exists s', step s s') -> (forall s', step s s' -> inevitably Q s') -> inevitably Q s.

  Inductive reaches : option (Conf A) -> option (Conf A) -> Prop :=
  | reach_refl : forall s, reaches s s
  | reach_step : forall s s' s'', step s s' -> reaches s' s'' -> reaches s s''.

  (** A data race: two threads are about to access the same location, and one of them to write it. *)
  Definition writes (p : Prog A) (l : Loc) : Prop := match p with Store l' _ _ => l' = l | _ => False end.
  Definition reads (p : Prog A) (l : Loc) : Prop := match p with Load l' _ => l' = l | _ => False end.
  Definition race (s : option (Conf A)) : Prop :=
    exists c t u pt pu l, s = Some c /\ t <> u /\ nth_error (c_thr c) t = Some pt /\ nth_error (c_thr c) u = Some pu /\
      writes pt l /\ (writes pu l \/ reads pu l).

  (** Starting the threads [ts] on memory [m]: no race at any time, and every interleaving ends in [Q]. *)
  Definition parallel (ts : list (Prog A)) (m : Mem A) (Q : Mem A -> Prop) : Prop :=
    let s := Some (mkConf m ts None) in
    (forall s', reaches s s' -> ~ race s') /\ inevitably Q s.
End SpecThreads.
