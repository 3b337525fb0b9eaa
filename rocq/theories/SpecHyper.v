(** * SpecHyper: elastic energy of a body, and the forces that derive from it. *)
From Coq Require Import Reals ZArith List Bool.
From Verif Require Import Num NumR Tools Lin Types Transfer Spec SpecMech SpecPlastic SpecMpm.
Import ListNotations.
Local Open Scope R_scope.

Section SpecHyper.
  Context {G : Geo R}.

  (** [psi F] is the elastic energy per unit of initial volume in the deformation [F].
      Hencky: mu |ln s|^2 + lambda/2 (sum of ln s)^2 for the principal stretches s.
      Neo-Hookean: mu/2 (|F|^2 - d) - mu ln J + lambda/2 (ln J)^2. *)
  Definition strain_energy (p : Par R) (psi : TM -> R) : Prop := forall F, 0 < mdet F ->
    match elastic_model p with
    | Hencky => exists U s V, is_svd F U s V /\
        psi F = mu p * sumd (fun k => (ln (vget s k))²) + lambda p / 2 * (sumd (fun k => ln (vget s k)))²
    | NeoHookean =>
        psi F = mu p / 2 * (sumd (fun i => sumd (fun j => (mget F i j)²)) - INR dim) - mu p * ln (mdet F) + lambda p / 2 * (ln (mdet F))²
    end.
  (** The Kirchhoff stress of the selected elastic law. *)
  Definition elastic_stress (p : Par R) (F t : TM) : Prop :=
    match elastic_model p with Hencky => is_hencky_stress p F t | NeoHookean => t = neo_hookean_stress p F end.
  (** a : b *)
  Definition inner (a b : TM) : R := sumd (fun i => sumd (fun j => mget a i j * mget b i j)).

  (** Deformation of particle [q] after the node at [X] alone is displaced by [t] along axis [k]:
      the displacement field is t w_X(x) e_k, its gradient t e_k (grad w_X)^T. *)
  Definition displaced (p : Par R) (X : TV) (k : nat) (t : R) (q : P1 R) : TM :=
    mmul (madd mident (mtab (fun i j => if Nat.eqb i k then t * dweight p X (q_x q) j else 0))) (q_F q).
  (** Elastic energy of the body, as a function of the displacement of that node. *)
  Definition body_energy (p : Par R) (psi : TM -> R) (l : list (P1 R)) (X : TV) (k : nat) (t : R) : R :=
    particle_volume p * Rsum (fun q => psi (displaced p X k t q)) l.
  (** Every particle is stressed according to the elastic law. *)
  Definition elastic_body (p : Par R) (l : list (P1 R)) : Prop :=
    Forall (fun q => 0 < mdet (q_F q) /\ elastic_stress p (q_F q) (q_tau q)) l.
End SpecHyper.
