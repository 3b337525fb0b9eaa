(** * Objects: /repo/src/objects/*.hpp and Simulation::boundaryCollision. *)
From Coq Require Import ZArith List Bool.
From Verif Require Import Num Tools Lin Types.
Import ListNotations.
Local Open Scope num_scope.

Section Objects.
  Context {A : Type} {NA : Num A} {G : Geo A}.

  (** object_bump.hpp:20, object_ramp.hpp:20, object_gate.hpp:21, object_curve.hpp:20,
      object_silo.hpp:26: the terrain profiles. *)
  Definition bump_y (x : A) : A := 475//10000 / ncosh (#25 * (x - 43//100)).
  Definition ramp_y (x : A) : A := 1//10 * ntanh (#(-100) * x).
  Definition gate_y (h x : A) : A := h + #100 * x * x.

  (** inside(): object_ground.hpp:16-25, object_curve.hpp:15-25, object_bump.hpp:15-27,
      object_ramp.hpp:15-26, object_gate.hpp:16-28, object_silo.hpp:16-35.
      The silo reads X_in(2), which does not exist in 2D: undefined. *)
  Definition inside (s : Shape A) (X : TV) : res bool :=
    let x := vget X 0 in let y := vget X 1 in
    match s with
    | Ground yg => Ok (negb (y >? yg))
    | Curve => Ok (negb (y >? x * x))
    | Bump => Ok (y <? bump_y x)
    | Ramp => Ok (y <? ramp_y x)
    | Gate h => Ok (y >? gate_y h x)
    | Silo cut =>
        match dim with
        | 3%nat =>
            let z := vget X 2 in
            if y <? cut then Ok false
            else let r := ntanh y + #1 in Ok (negb (x * x + z * z <? r * r))
        | _ => UB
        end
    | Custom ins _ => Ok (ins X)
    end.

  Definition vec01 (a b : A) : TV :=      (* TV::Zero() with the first two components set *)
    vset (vset vzero 0 a) 1 b.

  (** normal(): object_ground.hpp:27-36, object_curve.hpp:27-37, object_bump.hpp:29-40,
      object_ramp.hpp:28-39, object_gate.hpp:30-41, object_silo.hpp:37-54.
      ObjectGround::normal leaves n(2) uninitialised in 3D: undefined. *)
  Definition normal (s : Shape A) (X : TV) : res TV :=
    let x := vget X 0 in
    match s with
    | Ground _ =>
        match dim with 2%nat => Ok (vec01 #0 #1) | _ => UB end
    | Curve => Ok (vnormalized (vec01 (#(-2) * x) #1))
    | Bump =>
        let arg := #25 * (x - 43//100) in
        let b_der := #(-25) * (475//10000) * ntanh arg / ncosh arg in
        Ok (vnormalized (vec01 (- b_der) #1))
    | Ramp =>
        let tmp := ncosh (#(-100) * x) in
        let b_der := 1//10 * #(-100) / (tmp * tmp) in
        Ok (vnormalized (vec01 (- b_der) #1))
    | Gate _ =>
        let b_der := #2 * #100 * x in
        Ok (vnormalized (vscale (vec01 (- b_der) #1) #(-1)))
    | Silo _ =>
        match dim with
        | 3%nat =>
            let y := vget X 1 in let z := vget X 2 in
            let theta := natan2 z x in
            let sech := #1 / ncosh y in
            Ok (vnormalized (vset (vset (vset vzero 0 (- ncos theta)) 1 (sech * sech))
                                  2 (- nsin theta)))
        | _ => UB
        end
    | Custom _ nrm => nrm X
    end.

  (** boundary_collision.cpp:16-66: new velocity of a node inside a general object.
      [fric] is obj->friction, or grid.friction[index] when use_mibf. *)
  Definition collide (bc : BC) (fric : A) (n : res TV) (v : TV) : res TV :=
    match bc with
    | NoSlip => Ok vzero                                             (* :18-20 *)
    | SlipFree =>                                                    (* :22-42 *)
        n <- n ;;
        let dot := vdot v n in
        if dot <? #0 then
          let vt := vsub v (lscale dot n) in
          if fric >? #0 then
            if - dot * fric <? vnorm vt
            then Ok (vadd vt (vscale (vscale (vnormalized vt) dot) fric))
            else Ok vzero
          else Ok vt
        else Ok v
    | SlipStick =>                                                   (* :44-64 *)
        n <- n ;;
        let dot := vdot v n in
        let vt := vsub v (lscale dot n) in
        if dot <? #0 then
          if fric >? #0 then
            if - dot * fric <? vnorm vt
            then Ok (vadd vt (vscale (vscale (vnormalized vt) dot) fric))
            else Ok vzero
          else Ok vt
        else Ok vt
    end.

  (** boundary_collision.cpp:13-79: loop over the general objects.  [X] is the predicted node
      position; [nfr] is grid.friction[index]. *)
  Definition objects_loop (p : Par A) (nfr : A) (X : TV) (v : TV) : res TV :=
    foldM (fun v o =>
             c <- inside (ob_shape o) X ;;
             if (c : bool) then
               collide (ob_bc o) (if use_mibf p then nfr else ob_fric o) (normal (ob_shape o) X) v
             else Ok v) (objects p) v.

  (** object_plate.hpp:30-78 (3D) and :98-131 (2D, where front/back report "FATAL" and are never
      inside). *)
  Definition plate_inside (pl : Plate A) (X : TV) : bool :=
    let x := vget X 0 in let y := vget X 1 in
    match pl_type pl with
    | pleft => (y <? pl_upper pl) && (y >? pl_lower pl) && ((x - pl_pos pl) <=? #0)
    | pright => (y <? pl_upper pl) && (y >? pl_lower pl) && ((pl_pos pl - x) <=? #0)
    | pbottom => (x <? pl_upper pl) && (x >? pl_lower pl) && ((y - pl_pos pl) <=? #0)
    | ptop => (x <? pl_upper pl) && (x >? pl_lower pl) && ((pl_pos pl - y) <=? #0)
    | pback => match dim with 3%nat => (vget X 2 - pl_pos pl) <=? #0 | _ => false end
    | pfront => match dim with 3%nat => (pl_pos pl - vget X 2) <=? #0 | _ => false end
    end.

  (** 2D: boundary_collision.cpp:286-297, 306-317, 336-347, 355-366 (four copies of the same
      code): tangential component [vt] against normal component [vn]. *)
  Definition plate_fric2 (fric vt vn : A) : A :=
    if fric =? #0 then vt
    else if nabs vt <? fric * nabs vn then #0
    else if vt >? #0 then vt - fric * nabs vn
    else vt + fric * nabs vn.

  (** 3D: boundary_collision.cpp:106-119, 128-141, 150-163, 181-194, 202-215, 223-236 (six copies
      of the same code): tangential components [t1], [t2]; [t2] is computed from the already
      overwritten [t1], as in the source. *)
  Definition plate_fric3 (fric t1 t2 vn : A) : A * A :=
    let vel_t := nsqrt (t1 * t1 + t2 * t2) in
    let fvn := fric * nabs vn in
    if fric =? #0 then (t1, t2)
    else if vel_t <=? fvn then (#0, #0)
    else
      let t1' := #(sgn t1) * (vel_t - fvn) / nsqrt (#1 + t2 * t2 / (t1 * t1)) in
      let t2' := #(sgn t2) * (vel_t - fvn) / nsqrt (#1 + t1' * t1' / (t2 * t2)) in
      (t1', t2').

  (** Axis normal to the plate, and the tangential axes in the order the 3D code treats them. *)
  Definition plate_axis (t : PlateType) : nat :=
    match t with pleft | pright => 0 | ptop | pbottom => 1 | pfront | pback => 2 end%nat.
  Definition plate_tan (t : PlateType) : nat * nat :=
    match t with pleft | pright => (1, 2) | ptop | pbottom => (0, 2) | pfront | pback => (0, 1) end%nat.

  (** boundary_collision.cpp:179, 200, 221, 334, 353: moving into the plate. *)
  Definition plate_towards (t : PlateType) (w : TV) : bool :=
    match t with
    | ptop => vget w 1 >? #0
    | pbottom => vget w 1 <? #0
    | pleft => vget w 0 <? #0
    | pright => vget w 0 >? #0
    | pfront => vget w 2 >? #0
    | pback => vget w 2 <? #0
    end.

  (** boundary_collision.cpp:97-169, 173-242 (3D), 278-324, 328-372 (2D): the relative velocity after the normal component is removed and friction applied. *)
  Definition plate_slide (fric : A) (t : PlateType) (w : TV) : TV :=
    let n := plate_axis t in
    match dim with
    | 2%nat =>
        match t with
        | pfront | pback => w                          (* no 2D branch for these plates *)
        | _ =>
            let k := if Nat.eqb n 0 then 1%nat else 0%nat in
            vset (vset w k (plate_fric2 fric (vget w k) (vget w n))) n #0
        end
    | _ =>
        let '(k1, k2) := plate_tan t in
        let '(a, b) := plate_fric3 fric (vget w k1) (vget w k2) (vget w n) in
        vset (vset (vset w k1 a) k2 b) n #0
    end.

  (** boundary_collision.cpp:84-261 (3D) and :267-390 (2D): one plate. *)
  Definition plate_collide (mibf : bool) (nfr : A) (pl : Plate A) (v : TV) : TV :=
    let w := vsub v (pl_v pl) in
    let fric := if mibf then nfr else pl_fric pl in
    let w' :=
      match pl_bc pl with
      | NoSlip => vzero
      | SlipStick => plate_slide fric (pl_type pl) w
      | SlipFree => if plate_towards (pl_type pl) w then plate_slide fric (pl_type pl) w else w
      end in
    vadd w' (pl_v pl).

  (** boundary_collision.cpp:84-261, 267-390: loop over the plates. *)
  Definition plates_loop (p : Par A) (nfr : A) (plates : list (Plate A)) (X : TV) (v : TV) : TV :=
    fold_left (fun v pl => if plate_inside pl X then plate_collide (use_mibf p) nfr pl v else v)
              plates v.

  (** boundary_collision.cpp:5-394.  Simplification: [vi] and the copy [vi_orig] are always equal
      at the start of an iteration (each collision ends with vi_orig = vi), so one variable is
      kept.  The INVALID BOUNDARY CONDITION branches are unreachable for the three BC values. *)
  Definition boundaryCollision (p : Par A) (plates : list (Plate A)) (dt nfr : A) (Xi vi : TV)
    : res TV :=
    let X := vadd Xi (lscale dt vi) in
    v <- objects_loop p nfr X vi ;;
    Ok (plates_loop p nfr plates X v).

  (** object_plate.hpp:136-162 move *)
  Definition plate_move (dt frame_dt time : A) (pl : Plate A) : Plate A :=
    let factor := if time <? pl_load pl * frame_dt then #1 / pl_vmin pl else #1 in
    let v := vscale (pl_v0 pl) factor in
    let '(pos, lo, up) :=
      match pl_type pl with
      | pleft | pright =>
          (pl_pos pl + dt * vget v 0, pl_lower pl + dt * vget v 1, pl_upper pl + dt * vget v 1)
      | pbottom | ptop =>
          (pl_pos pl + dt * vget v 1, pl_lower pl + dt * vget v 0, pl_upper pl + dt * vget v 0)
      | pback | pfront =>
          match dim with
          | 3%nat => (pl_pos pl + dt * vget v 2, pl_lower pl, pl_upper pl)
          | _ => (pl_pos pl, pl_lower pl, pl_upper pl)
          end
      end in
    mkPlate pos (pl_type pl) (pl_bc pl) (pl_fric pl) lo up v (pl_v0 pl) (pl_vmin pl) (pl_load pl).
End Objects.
