(** * Remesh: /repo/src/simulation/remesh.cpp *)
From Coq Require Import ZArith List Bool.
From Verif Require Import Num Tools Lin Types.
Import ListNotations.
Local Open Scope num_scope.

Section Remesh.
  Context {A : Type} {NA : Num A} {G : Geo A}.

  (** std::max_element / std::min_element on one coordinate, then dereferenced
      (remesh.cpp:42-81, 187-225); dereferencing the end iterator of an empty vector is UB. *)
  Definition max_elem (xs : list A) : res A :=
    match xs with
    | [] => UB
    | x :: r => Ok (fold_left (fun m y => if m <? y then y else m) r x)
    end.
  Definition min_elem (xs : list A) : res A :=
    match xs with
    | [] => UB
    | x :: r => Ok (fold_left (fun m y => if y <? m then y else m) r x)
    end.

  Definition arange (fuel : nat) (start stop step : A) : res (list A) :=
    match arange_loop fuel start stop step with Some l => Ok l | None => NoFuel end.

  (** grid.x = arange(...); grid.xc = grid.x[0];  remesh.cpp:134-144 *)
  Definition mk_axis (fuel : nat) (start stop step : A) : res (Axis A) :=
    co <- arange fuel start stop step ;;
    c <- rd co 0 ;;
    Ok (mkAxis co c).

  (** remesh.cpp:17-20: extent of axis [k] of the fixed grid. *)
  Definition remeshFixed_axis (fuel : nat) (p : Par A) (extra : Z) (k : nat) : res (Axis A) :=
    match k with
    | O => mk_axis fuel (- dx p * #(1 + extra)) (Lx p + #(2 + extra) * dx p) (dx p)
    | S O => mk_axis fuel (- dx p) (Ly p + #(2 + extra) * dx p) (dx p)
    | _ => mk_axis fuel (- dx p * #(1 + extra)) (Lz p + #(2 + extra) * dx p) (dx p)
    end.
  Definition remeshFixed (fuel : nat) (p : Par A) (extra : Z) : res (list (Axis A)) :=
    mapM (remeshFixed_axis fuel p extra) (seq 0 dim).

  (** remesh.cpp:83-105, one axis: take the reference point into account. *)
  Definition ref_adjust (p : Par A) (k : nat) (mn mx : A) : A * A :=
    if vget (grid_ref p) 0 <? #10000000000 then
      let r := vget (grid_ref p) k in
      if r <? mn then (r, mx) else if mx <? r then (mn, r) else (mn, mx)
    else (mn, mx).

  (** remesh.cpp:39-156, one axis. *)
  Definition remeshInit_axis (fuel : nat) (p : Par A) (sf : Z) (xs : list TV) (k : nat)
    : res (Axis A * MeshAx A) :=
    mx0 <- max_elem (map (fun v => vget v k) xs) ;;
    mn0 <- min_elem (map (fun v => vget v k) xs) ;;
    let '(mn, mx) := ref_adjust p k mn0 mx0 in
    let low := mn - dx p * #sf in
    let high := mx + dx p * #sf in
    ax <- mk_axis fuel low (high + dx p) (dx p) ;;
    Ok (ax, mkMeshAx mn mx low high).
  Definition remeshFixedInit (fuel : nat) (p : Par A) (sf : Z) (xs : list TV)
    : res (list (Axis A * MeshAx A)) :=
    mapM (remeshInit_axis fuel p sf xs) (seq 0 dim).

  (** [unsigned int f = std::floor( std::max(0.0, d/dx - 1e-8*dx) )], e.g. remesh.cpp:230. *)
  Definition shift_factor (p : Par A) (d : A) : res Z :=
    to_uint (nfloor (cmax #0 (d / dx p - 1//100000000 * dx p))).

  (** remesh.cpp:228-235 / 246-253 / 264-271 *)
  Definition cont_high (p : Par A) (m : MeshAx A) (mx : A) : res A :=
    if mx <? ma_max m then
      f <- shift_factor p (ma_max m - mx) ;; Ok (ma_high m - #f * dx p)
    else
      f <- shift_factor p (mx - ma_max m) ;; Ok (ma_high m + #f * dx p).
  (** remesh.cpp:237-244 / 255-262 / 273-280 *)
  Definition cont_low (p : Par A) (m : MeshAx A) (mn : A) : res A :=
    if ma_min m <? mn then
      f <- shift_factor p (mn - ma_min m) ;; Ok (ma_low m + #f * dx p)
    else
      f <- shift_factor p (ma_min m - mn) ;; Ok (ma_low m - #f * dx p).

  (** remesh.cpp:185-302, one axis. *)
  Definition remeshCont_axis (fuel : nat) (p : Par A) (xs : list TV) (m : MeshAx A) (k : nat)
    : res (Axis A) :=
    mx <- max_elem (map (fun v => vget v k) xs) ;;
    mn <- min_elem (map (fun v => vget v k) xs) ;;
    high <- cont_high p m mx ;;
    low <- cont_low p m mn ;;
    mk_axis fuel low (high + dx p) (dx p).
  Definition remeshFixedCont (fuel : nat) (p : Par A) (xs : list TV) (ms : list (MeshAx A))
    : res (list (Axis A)) :=
    mapM (fun mk => remeshCont_axis fuel p xs (fst mk) (snd mk)) (combine ms (seq 0 dim)).

  (** Number of nodes of an axis (Nx = grid.x.size(), unsigned int) and of the grid,
      remesh.cpp:29-36, 146-156, 289-296. *)
  Definition ax_n (a : Axis A) : Z := wrapu (Z.of_nat (length (ax_co a))).
  Definition grid_nodes (axes : list (Axis A)) : Z :=
    match map ax_n axes with
    | [nx; ny] => wrapu (nx * ny)
    | [nx; ny; nz] => wrapu (wrapu (nx * ny) * nz)
    | _ => 0
    end.

  (** remesh.cpp:5-12 resizeGrid: all nodal data zero. *)
  Definition zero_node : Node A := mkNode #0 vzero vzero vzero #0.
  Definition resizeGrid (axes : list (Axis A)) : list (Node A) :=
    repeat zero_node (Z.to_nat (grid_nodes axes)).

  (** simulation.hpp:199-207 ind: linear node index, unsigned 32-bit arithmetic. *)
  Definition ind2 (ny i j : Z) : Z := wrapu (wrapu (i * ny) + j).
  Definition ind3 (ny nz i j k : Z) : Z := wrapu (wrapu (wrapu (wrapu (i * ny) + j) * nz) + k).
End Remesh.
