(** * Sampling: /repo/src/sampling/{regular_sampling_particles,sampling_particles}.hpp and the
    Particles constructor, /repo/src/data_structures.hpp:10-26. *)
From Coq Require Import ZArith List Bool.
From Verif Require Import Num Tools Lin Types Transfer.
Import ListNotations.
Local Open Scope num_scope.

Section Sampling.
  Context {A : Type} {NA : Num A} {G : Geo A}.

  (** data_structures.hpp:10-26 *)
  Definition zero_hist : Hist A := mkHist #0 #0 #0 #0 #0 #0.
  Definition new_particles (n : nat) : Particles A :=
    mkParticles (repeat vzero n) (repeat vzero n) (repeat vzero n) (repeat vzero n)
                (repeat zero_hist n) (repeat mident n) (repeat mzero n) (repeat mzero n).

  (** What the samplers set: dx, particle_volume, particle_mass, particles (Np = their number). *)
  Record Sampled := mkSampled { sa_dx : A; sa_vol : A; sa_mass : A; sa_p : Particles A }.

  (** Particles(Np) with the positions overwritten, regular_sampling_particles.hpp:140-145,
      sampling_particles.hpp:61-69, 112-120. *)
  Definition place (xs : list TV) : Particles A :=
    let P := new_particles (length xs) in
    mkParticles xs (p_v P) (p_pic P) (p_flip P) (p_hist P) (p_F P) (p_B P) (p_tau P).

  (** The crop shapes.  3D: cylinder (1) and silo (2), regular_sampling_particles.hpp:53-80,
      sampling_particles.hpp:34-59; 2D: quadratic gate (1), :118-133 resp. :96-110. *)
  Definition in_shape (crop : Z) (lx lz d : A) (x : TV) : bool :=
    match dim with
    | 2%nat =>
        if (crop =? 1)%Z then
          let xp := vget x 0 in
          vget x 1 <? 5//100 + #100 * (xp - lx) * (xp - lx) - 1//2 * d
        else true
    | _ =>
        let cx := vget x 0 - lx / #2 in
        let cz := vget x 2 - lz / #2 in
        if (crop =? 1)%Z then cx * cx + cz * cz <? (lx / #2) * (lx / #2)
        else if (crop =? 2)%Z then
          let r := ntanh (vget x 1) + #1 in cx * cx + cz * cz <? r * r
        else true
    end.

  (** regular_sampling_particles.hpp:28, 93 *)
  Definition spacing (p : Par A) (ppc : A) : A :=
    match dim with 2%nat => dx p / nsqrt ppc | _ => dx p / ncbrt ppc end.
  (** :42, 105: coordinate of cell [i] *)
  Definition cell (s : A) (i : nat) : A := #0 + (#(Z.of_nat i) + 1//2) * s.

  (** regular_sampling_particles.hpp:30-48, 95-110 *)
  Definition regular_points (p : Par A) (s : A) : res (list TV) :=
    nx <- to_int (Lx p / s) ;;
    ny <- to_int (Ly p / s) ;;
    match dim with
    | 2%nat =>
        Ok (flat_map (fun i => map (fun j => vset (vset vzero 0 (cell s i)) 1 (cell s j))
                                   (seq 0 (Z.to_nat ny))) (seq 0 (Z.to_nat nx)))
    | _ =>
        nz <- to_int (Lz p / s) ;;
        Ok (flat_map (fun i => flat_map (fun j => map (fun k =>
              vset (vset (vset vzero 0 (cell s i)) 1 (cell s j)) 2 (cell s k))
              (seq 0 (Z.to_nat nz))) (seq 0 (Z.to_nat ny))) (seq 0 (Z.to_nat nx)))
    end.

  (** regular_sampling_particles.hpp:9-147 *)
  Definition regularSample (p : Par A) (ppc : A) (crop : Z) : res Sampled :=
    let s := spacing p ppc in
    pts <- regular_points p s ;;
    let vol := match dim with 2%nat => s * s | _ => s * s * s end in
    Ok (mkSampled (dx p) vol (rho p * vol)
                  (place (filter (in_shape crop (Lx p) (Lz p) (dx p)) pts))).

  (** sampling_particles.hpp:12-125.  [samples]: what thinks::PoissonDiskSampling returned. *)
  Definition sample (p : Par A) (ppc : A) (crop : Z) (samples : list TV) : Sampled :=
    let n := #(Z.of_nat (length samples)) in
    let d := match dim with
             | 2%nat => nsqrt (ppc / n * Lx p * Ly p)
             | _ => ncbrt (ppc / n * Lx p * Ly p * Lz p)
             end in
    let vol := match dim with 2%nat => d * d / ppc | _ => d * d * d / ppc end in
    mkSampled d vol (rho p * vol) (place (filter (in_shape crop (Lx p) (Lz p) d) samples)).
End Sampling.
Arguments Sampled A {G}.
