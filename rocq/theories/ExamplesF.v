(** * ExamplesF: concrete states in IEEE binary64, evaluated with the same model code. *)
From Coq Require Import ZArith List Bool Floats.SpecFloat.
From Verif Require Import Num NumF Tools Lin Types Remesh Objects Transfer.
Import ListNotations.

Section Gen.
  Context {A : Type} {NA : Num A} {G : Geo A}.
  (** The defaults of simulation.hpp:36-114 over any number type. *)
  Definition gpar (s : Spline) (h flip : A) (pm : PlasticModel) (hl : HardeningLaw)
    (pbc mibf musl : bool) (obs : list (Obj A)) : Par A :=
    {| spline := s; end_frame := 1; use_pbc := pbc; change_pos := false; gravity_special := false;
       save_sim := true; save_grid := false; use_mibf := mibf; use_musl := musl;
       grid_ref := vtab (fun _ => nofZ 20000000000); gravity0 := vtab (fun _ => nofZ 0);
       min_dt := nofQ 1 100000000000000; fps := nofZ 1; cfl := nofQ 1 2; cfl_elastic := nofQ 1 2;
       flip_ratio := flip; rho := nofZ 1000; gravity_time := nofZ 0; Lx := nofZ 1; Ly := nofZ 1; Lz := nofZ 1;
       particle_mass := nofZ 1; particle_volume := nofZ 1; dx := h;
       elastic_model := Hencky; plastic_model := pm; hardening_law := hl;
       use_pradhana := true; young := nofZ 1000000; nu := nofQ 3 10; stress_tolerance := nofQ 1 100000; xi := nofZ 0;
       q_max := nofZ 100; q_min := nofZ 100; p_min := nofZ (-100000000000000000000);
       Mfric := nofZ 1; q_cohesion := nofZ 0; visc_exponent := nofZ 1; visc_time := nofZ 0; use_dl := false;
       beta := nofZ 0; p0 := nofZ 1000; rho_s := nofZ 2500; grain_diameter := nofQ 1 1000; I_ref := nofQ 279 1000;
       mu_1 := nofQ 38 100; mu_2 := nofQ 64 100; q_prefac := ndiv (nofZ 1) (nsqrt (nofZ 2)); objects := obs |}.
  Definition ghist (m : A) : Hist A := mkHist (nofZ 0) (nofZ 0) (nofZ 0) (nofZ 0) (nofZ 0) m.
  (** Particles at rest in the reference configuration with given positions, velocities, friction. *)
  Definition gparticles (l : list (TV * TV * A)) : Particles A :=
    mkParticles (map (fun q => fst (fst q)) l) (map (fun q => snd (fst q)) l)
      (map (fun _ => vzero) l) (map (fun _ => vzero) l) (map (fun q => ghist (snd q)) l)
      (map (fun _ => mident) l) (map (fun _ => mzero) l) (map (fun _ => mzero) l).
  (** [n] nodes with spacing one starting at [z]. *)
  Definition gaxis (z : Z) (n : nat) : Axis A := mkAxis (map (fun i => nofZ (z + Z.of_nat i)) (seq 0 n)) (nofZ z).
End Gen.

Section F.
  Variable L : Libm.
  Local Instance nf : Num F := NumF L.
  Definition f2 (a b : F) : @TV F (Geo2 F) := mkV2 a b.
  Definition fpar (mibf : bool) : @Par F (Geo2 F) :=
    gpar (G := Geo2 F) Deg2 (nofZ 1) (nofZ 0) NoPlasticity ExpoImpl false mibf false [].

  (** Three particles at one place with velocities 1, 2^-53, 2^-53. *)
  Definition tiny : F := S754_finite false 4503599627370496 (-105).
  Definition three : @Particles F (Geo2 F) :=
    let x := f2 (nofQ 3 2) (nofQ 3 2) in
    gparticles (G := Geo2 F) [(x, f2 (nofZ 1) (nofZ 0), nofZ 0); (x, f2 tiny (nofZ 0), nofZ 0); (x, f2 tiny (nofZ 0), nofZ 0)].
  Definition axf : list (Axis F) := [gaxis 0 5; gaxis 0 5].
  Definition vel_at (r : res (list (@Node F (Geo2 F)))) (i : nat) : option F :=
    match r with Ok nodes => match nth_error nodes i with Some nd => Some (vget (nd_v nd) 0) | None => None end | _ => None end.
  Definition fr_at (r : res (list (@Node F (Geo2 F)))) (i : nat) : option (F * F) :=
    match r with Ok nodes => match nth_error nodes i with Some nd => Some (nd_m nd, nd_fr nd) | None => None end | _ => None end.
  Lemma order1 : vel_at (p2g (fpar false) axf three [[0]; [1]; [2]]%nat (resizeGrid axf)) 6 = Some (S754_finite false 6004799503160661 (-54)).
  Proof. vm_compute. reflexivity. Qed.
  Lemma order2 : vel_at (p2g (fpar false) axf three [[0]; [1; 2]]%nat (resizeGrid axf)) 6 = Some (S754_finite false 6004799503160663 (-54)).
  Proof. vm_compute. reflexivity. Qed.
  (** With mu(I) friction on the grid: no particle touches the node at (4,4). *)
  Lemma friction_nan : fr_at (p2g (fpar true) axf three [[0; 1; 2]]%nat (resizeGrid axf)) 24 = Some (S754_zero false, S754_nan).
  Proof. vm_compute. reflexivity. Qed.
  Lemma vel_at_differ : forall r1 r2 i a b, vel_at r1 i = Some a -> vel_at r2 i = Some b -> a <> b ->
    exists n1 n2, r1 = Ok n1 /\ r2 = Ok n2 /\ n1 <> n2.
  Proof.
    intros [n1| |] [n2| |] i a b H1 H2 N; try discriminate. exists n1, n2. repeat split; auto. intros ->. congruence.
  Qed.
  Lemma fr_at_in : forall r i a b, fr_at r i = Some (a, b) -> exists nodes nd, r = Ok nodes /\ In nd nodes /\ nd_m nd = a /\ nd_fr nd = b.
  Proof.
    intros [n| |] i a b H; try discriminate. cbn in H. destruct (nth_error n i) as [nd|] eqn:E; [|discriminate].
    injection H as <- <-. exists n, nd. repeat split; auto. apply (nth_error_In _ _ E).
  Qed.
  Lemma orders_differ : exists n1 n2,
    p2g (fpar false) axf three [[0]; [1]; [2]]%nat (resizeGrid axf) = Ok n1 /\
    p2g (fpar false) axf three [[0]; [1; 2]]%nat (resizeGrid axf) = Ok n2 /\ n1 <> n2.
  Proof. apply (vel_at_differ _ _ 6 _ _ order1 order2). discriminate. Qed.
  Lemma friction_nan_node : exists nodes nd,
    p2g (fpar true) axf three [[0; 1; 2]]%nat (resizeGrid axf) = Ok nodes /\ In nd nodes /\
    nd_m nd = S754_zero false /\ nd_fr nd = S754_nan.
  Proof. exact (fr_at_in _ _ _ _ friction_nan). Qed.
End F.
