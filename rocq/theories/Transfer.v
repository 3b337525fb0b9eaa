(** * Transfer: P2G, explicitEulerUpdate, G2P, MUSL, deformationUpdate, positionUpdate.
    /repo/src/simulation/{p2g,explicit_euler_update,g2p,musl,deformation_update,position_update}.cpp

    OpenMP loops are modelled with explicit schedules: a loop with per-thread buffers takes the
    list of index lists executed by the threads, in the order in which the threads enter the
    critical section; a loop whose iterations touch only their own particle/node takes the order
    of the iterations.  Theorems quantify over all schedules. *)
From Coq Require Import ZArith List Bool.
From Verif Require Import Num Tools Lin Types Remesh Objects.
Import ListNotations.
Local Open Scope num_scope.

Section Transfer.
  Context {A : Type} {NA : Num A} {G : Geo A}.

  (** ** Stencils *)

  (** p2g.cpp:22-26, musl.cpp:37-41: [max(0, int(floor((xp-xc)*one_over_dx)) - 1)]. *)
  Definition base_p2g (p : Par A) (a : Axis A) (x : A) : res Z :=
    z <- to_int (nfloor ((x - ax_c a) * one_over_dx p)) ;;
    if int_ok (z - 1) then Ok (Z.max 0 (z - 1)) else UB.
  (** g2p.cpp:29-33, deformation_update.cpp:21-25: [unsigned i_base = floor(...) - 1]. *)
  Definition base_g2p (p : Par A) (a : Axis A) (x : A) : res Z :=
    to_uint (nfloor ((x - ax_c a) * one_over_dx p) - #1).

  (** One node of one axis: index, coordinate, N and N' (p2g.cpp:46-48 and copies). *)
  Record AxItem := mkAxItem { ai_i : Z; ai_x : A; ai_w : A; ai_g : A }.
  Definition ax_item (p : Par A) (a : Axis A) (x : A) (i : Z) : res AxItem :=
    xi <- rd (ax_co a) i ;;
    Ok (mkAxItem i xi (N (spline p) ((x - xi) * one_over_dx p))
                 (dNdu (spline p) ((x - xi) * one_over_dx p) * one_over_dx p)).
  (** [for (int i = base; i < base+4; i++)], p2g.cpp:45.  Simplification: a base so large that
      base+4 wraps around 2^32 is reported as an out-of-range read. *)
  Definition ax_items (p : Par A) (a : Axis A) (x : A) (base : Z) : res (list AxItem) :=
    mapM (fun d => ax_item p a x (base + d)%Z) [0; 1; 2; 3]%Z.

  (** One node of the stencil: linear index, weight, weight gradient, position. *)
  Record Item := mkItem { it_idx : Z; it_w : A; it_g : TV; it_x : TV }.

  (** p2g.cpp:59-63 / 81-84 and copies *)
  Definition item2 (ny : Z) (a b : AxItem) : Item :=
    mkItem (ind2 ny (ai_i a) (ai_i b)) (ai_w a * ai_w b)
           (vset (vset vzero 0 (ai_g a * ai_w b)) 1 (ai_w a * ai_g b))
           (vset (vset vzero 0 (ai_x a)) 1 (ai_x b)).
  Definition item3 (ny nz : Z) (a b c : AxItem) : Item :=
    mkItem (ind3 ny nz (ai_i a) (ai_i b) (ai_i c)) (ai_w a * ai_w b * ai_w c)
           (vset (vset (vset vzero 0 (ai_g a * ai_w b * ai_w c)) 1 (ai_w a * ai_g b * ai_w c))
                 2 (ai_w a * ai_w b * ai_g c))
           (vset (vset (vset vzero 0 (ai_x a)) 1 (ai_x b)) 2 (ai_x c)).

  (** The nested loops over the 4x4(x4) nodes around a particle. *)
  Definition stencil (base : Par A -> Axis A -> A -> res Z) (p : Par A) (axes : list (Axis A))
    (x : TV) : res (list Item) :=
    match axes with
    | [ax; ay] =>
        bi <- base p ax (vget x 0) ;;
        bj <- base p ay (vget x 1) ;;
        xs <- ax_items p ax (vget x 0) bi ;;
        ys <- ax_items p ay (vget x 1) bj ;;
        Ok (flat_map (fun a => map (item2 (ax_n ay) a) ys) xs)
    | [ax; ay; az] =>
        bi <- base p ax (vget x 0) ;;
        bj <- base p ay (vget x 1) ;;
        bk <- base p az (vget x 2) ;;
        xs <- ax_items p ax (vget x 0) bi ;;
        ys <- ax_items p ay (vget x 1) bj ;;
        zs <- ax_items p az (vget x 2) bk ;;
        Ok (flat_map (fun a => flat_map (fun b => map (item3 (ax_n ay) (ax_n az) a b) zs) ys) xs)
    | _ => UB
    end.

  (** ** P2G *)

  Definition w_min : A := nofQ 1 10000000000000000000000000.      (* 1e-25 *)

  (** p2g.cpp:65-77 / 86-98: the contribution of one particle to one node. *)
  Definition p2g_node (p : Par A) (xp vp : TV) (B tau : TM) (mui : A) (it : Item) (nd : Node A)
    : Node A :=
    let w := it_w it in
    let v1 := vadd (nd_v nd) (vscale vp w) in
    let v2 := if flip_ratio p <? #0
              then vadd v1 (vscale (vscale (mvec B (vsub (it_x it) xp)) (apicDinverse p)) w)
              else v1 in
    mkNode (nd_m nd + w) v2 (nd_flip nd) (vadd (nd_f nd) (mvec tau (it_g it)))
           (if use_mibf p then nd_fr nd + mui * w else nd_fr nd).

  Definition p2g_item (p : Par A) (xp vp : TV) (B tau : TM) (mui : A)
    (nodes : list (Node A)) (it : Item) : res (list (Node A)) :=
    if it_w it >? w_min then upd nodes (it_idx it) (p2g_node p xp vp B tau mui it) else Ok nodes.

  (** p2g.cpp:20-102, one iteration on the thread's buffers.  Simplification: v, Bmat and muI are
      read once before the node loop (in the code: at each node passing the weight test). *)
  Definition p2g_particle (p : Par A) (axes : list (Axis A)) (P : Particles A)
    (nodes : list (Node A)) (i : nat) : res (list (Node A)) :=
    let z := Z.of_nat i in
    xp <- rd (p_x P) z ;;
    tau <- rd (p_tau P) z ;;
    vp <- rd (p_v P) z ;;
    B <- (if flip_ratio p <? #0 then rd (p_B P) z else Ok mzero) ;;
    mui <- (if use_mibf p then h <- rd (p_hist P) z ;; Ok (h_muI h) else Ok #0) ;;
    items <- stencil base_p2g p axes xp ;;
    foldM (p2g_item p xp vp B tau mui) items nodes.

  (** p2g.cpp:104-113: merging a thread's buffers in the critical section. *)
  Definition node_add (p : Par A) (a b : Node A) : Node A :=
    mkNode (nd_m a + nd_m b) (vadd (nd_v a) (nd_v b)) (nd_flip a) (vadd (nd_f a) (nd_f b))
           (if use_mibf p then nd_fr a + nd_fr b else nd_fr a).
  Definition merge (p : Par A) (g l : list (Node A)) : list (Node A) :=
    map (fun ab => node_add p (fst ab) (snd ab)) (combine g l).

  (** p2g.cpp:12-115: one thread, starting from zeroed local buffers. *)
  Definition p2g_thread (p : Par A) (axes : list (Axis A)) (P : Particles A)
    (zero : list (Node A)) (th : list nat) : res (list (Node A)) :=
    foldM (p2g_particle p axes P) th zero.
  Definition p2g_accumulate (p : Par A) (axes : list (Axis A)) (P : Particles A)
    (sched : list (list nat)) (nodes : list (Node A)) : res (list (Node A)) :=
    foldM (fun g th =>
             l <- p2g_thread p axes P (repeat zero_node (length nodes)) th ;; Ok (merge p g l))
          sched nodes.

  (** p2g.cpp:121-135: velocities and friction become averages, masses are scaled. *)
  Definition p2g_finish_node (p : Par A) (nd : Node A) : Node A :=
    let mi := nd_m nd in
    mkNode (mi * particle_mass p)
           (if mi >? #0 then vdivs (nd_v nd) mi else vzero)
           (nd_flip nd) (nd_f nd)
           (if use_mibf p then nd_fr nd / mi else nd_fr nd).
  Definition p2g (p : Par A) (axes : list (Axis A)) (P : Particles A)
    (sched : list (list nat)) (nodes : list (Node A)) : res (list (Node A)) :=
    nodes' <- p2g_accumulate p axes P sched nodes ;;
    Ok (map (p2g_finish_node p) nodes').

  (** ** explicitEulerUpdate *)

  (** The loop nest over (i,j(,k)) with the index and position of each node,
      explicit_euler_update.cpp:20-48. *)
  Definition zseq (n : Z) : list Z := map Z.of_nat (seq 0 (Z.to_nat n)).
  Definition node_list (axes : list (Axis A)) : res (list (Z * TV)) :=
    match axes with
    | [ax; ay] =>
        xs <- mapM (fun i => x <- rd (ax_co ax) i ;; Ok (i, x)) (zseq (ax_n ax)) ;;
        ys <- mapM (fun j => y <- rd (ax_co ay) j ;; Ok (j, y)) (zseq (ax_n ay)) ;;
        Ok (flat_map (fun a => map (fun b =>
              (ind2 (ax_n ay) (fst a) (fst b), vset (vset vzero 0 (snd a)) 1 (snd b))) ys) xs)
    | [ax; ay; az] =>
        xs <- mapM (fun i => x <- rd (ax_co ax) i ;; Ok (i, x)) (zseq (ax_n ax)) ;;
        ys <- mapM (fun j => y <- rd (ax_co ay) j ;; Ok (j, y)) (zseq (ax_n ay)) ;;
        zs <- mapM (fun k => z <- rd (ax_co az) k ;; Ok (k, z)) (zseq (ax_n az)) ;;
        Ok (flat_map (fun a => flat_map (fun b => map (fun c =>
              (ind3 (ax_n ay) (ax_n az) (fst a) (fst b) (fst c),
               vset (vset (vset vzero 0 (snd a)) 1 (snd b)) 2 (snd c))) zs) ys) xs)
    | _ => UB
    end.

  (** explicit_euler_update.cpp:29-61 *)
  Definition euler_node (p : Par A) (plates : list (Plate A)) (dt : A) (grav : TV) (X : TV)
    (nd : Node A) : res (Node A) :=
    let mi := nd_m nd in
    if mi >? #0 then
      let dtpv := dt * particle_volume p in
      let incr := vadd (vdivs (lscale (- dtpv) (nd_f nd)) mi) (lscale dt grav) in
      let old := nd_v nd in
      new <- boundaryCollision p plates dt (nd_fr nd) X (vadd old incr) ;;
      Ok (mkNode mi new (vsub new old) (nd_f nd) (nd_fr nd))
    else Ok nd.

  (** [sched] lists positions in the loop nest, in execution order. *)
  Definition euler (p : Par A) (plates : list (Plate A)) (dt : A) (grav : TV)
    (axes : list (Axis A)) (sched : list nat) (nodes : list (Node A)) : res (list (Node A)) :=
    nl <- node_list axes ;;
    foldM (fun g k =>
             ix <- rd nl (Z.of_nat k) ;;
             nd <- rd g (fst ix) ;;
             nd' <- euler_node p plates dt grav (snd ix) nd ;;
             upd g (fst ix) (fun _ => nd')) sched nodes.

  (** ** Particle views: the entries of all arrays at one index. *)
  Record P1 := mkP1 {
    q_x : TV; q_v : TV; q_pic : TV; q_flip : TV; q_h : Hist A; q_F : TM; q_B : TM; q_tau : TM }.
  Definition getp (P : Particles A) (i : nat) : res P1 :=
    let z := Z.of_nat i in
    x <- rd (p_x P) z ;; v <- rd (p_v P) z ;; pic <- rd (p_pic P) z ;; fl <- rd (p_flip P) z ;;
    h <- rd (p_hist P) z ;; F <- rd (p_F P) z ;; B <- rd (p_B P) z ;; tau <- rd (p_tau P) z ;;
    Ok (mkP1 x v pic fl h F B tau).
  Definition putp (P : Particles A) (i : nat) (q : P1) : res (Particles A) :=
    let z := Z.of_nat i in
    x <- upd (p_x P) z (fun _ => q_x q) ;; v <- upd (p_v P) z (fun _ => q_v q) ;;
    pic <- upd (p_pic P) z (fun _ => q_pic q) ;; fl <- upd (p_flip P) z (fun _ => q_flip q) ;;
    h <- upd (p_hist P) z (fun _ => q_h q) ;; F <- upd (p_F P) z (fun _ => q_F q) ;;
    B <- upd (p_B P) z (fun _ => q_B q) ;; tau <- upd (p_tau P) z (fun _ => q_tau q) ;;
    Ok (mkParticles x v pic fl h F B tau).

  (** A parallel loop over particles whose iteration [i] reads and writes only the entries at [i];
      [fl] collects exit = 1 and the number of projected particles.  Simplification: all arrays
      are read at [i], also those an iteration does not use (they have equal length whenever such
      a loop runs, theorem C51). *)
  Definition Flags : Type := (bool * nat)%type.
  Definition ploop (body : P1 -> res (P1 * Flags)) (sched : list nat) (P : Particles A)
    : res (Particles A * Flags) :=
    foldM (fun s i =>
             q <- getp (fst s) i ;;
             r <- body q ;;
             P' <- putp (fst s) i (fst r) ;;
             Ok (P', (fst (snd s) || fst (snd r), (snd (snd s) + snd (snd r))%nat)))
          sched (P, (false, 0%nat)).

  (** ** G2P *)

  (** Result of the constitutive update of one particle (plasticity.cpp): F, tau, history,
      increments of plastic_count, and whether exit was set. *)
  Record PlOut := mkPlOut { o_F : TM; o_tau : TM; o_h : Hist A; o_count : nat; o_exit : bool }.

  (** The constitutive update, defined in Plastic.v: parameters, dt, trial F, tau, history. *)
  Variable plast : Par A -> A -> TM -> TM -> Hist A -> res PlOut.

  (** g2p.cpp:35-87: sums over the stencil. *)
  Definition gather (f : Item -> Node A -> TV -> TV) (nodes : list (Node A)) (items : list Item)
    : res TV :=
    foldM (fun acc it => nd <- rd nodes (it_idx it) ;; Ok (f it nd acc)) items vzero.
  Definition gatherM (f : Item -> Node A -> TM -> TM) (nodes : list (Node A)) (items : list Item)
    : res TM :=
    foldM (fun acc it => nd <- rd nodes (it_idx it) ;; Ok (f it nd acc)) items mzero.
  Definition g_pic := gather (fun it nd a => vadd a (vscale (nd_v nd) (it_w it))).
  Definition g_flip := gather (fun it nd a => vadd a (vscale (nd_flip nd) (it_w it))).
  Definition g_vgrad := gatherM (fun it nd a => madd a (mouter (nd_v nd) (it_g it))).
  Definition g_B (xp : TV) :=
    gatherM (fun it nd a => madd a (mscale (mouter (nd_v nd) (vsub (it_x it) xp)) (it_w it))).

  (** g2p.cpp:97-98, deformation_update.cpp:57-58: Fe_trial = F + dt * v_grad * F *)
  Definition F_trial (dt : A) (vgrad F : TM) : TM := madd F (mmul (mlscale dt vgrad) F).

  (** g2p.cpp:96-102 and deformation_update.cpp:57-61 *)
  Definition strain_particle (p : Par A) (dt : A) (vgrad : TM) (q : P1) : res (P1 * Flags) :=
    o <- plast p dt (F_trial dt vgrad (q_F q)) (q_tau q) (q_h q) ;;
    Ok (mkP1 (q_x q) (q_v q) (q_pic q) (q_flip q) (o_h o) (o_F o) (q_B q) (o_tau o),
        (o_exit o, o_count o)).

  (** g2p.cpp:23-104, one iteration, including the initial std::fill of pic, flip and Bmat
      (:15-17), which only this iteration reads at this index. *)
  Definition g2p_particle (p : Par A) (axes : list (Axis A)) (nodes : list (Node A)) (dt : A)
    (q : P1) : res (P1 * Flags) :=
    let xp := q_x q in
    items <- stencil base_g2p p axes xp ;;
    pic <- g_pic nodes items ;;
    vgrad <- g_vgrad nodes items ;;
    B <- (if flip_ratio p <? #0 then g_B xp nodes items else Ok mzero) ;;
    fl <- (if flip_ratio p >=? #(-1) then g_flip nodes items else Ok vzero) ;;
    let q' := mkP1 xp (q_v q) pic fl (q_h q) (q_F q) B (q_tau q) in
    if use_musl p then Ok (q', (false, 0%nat)) else strain_particle p dt vgrad q'.

  Definition g2p (p : Par A) (axes : list (Axis A)) (nodes : list (Node A)) (dt : A)
    (sched : list nat) (P : Particles A) : res (Particles A * Flags) :=
    ploop (g2p_particle p axes nodes dt) sched P.

  (** ** Velocity update: musl.cpp:16-23 and position_update.cpp:15-22 *)
  Definition new_velocity (p : Par A) (q : P1) : TV :=
    let fr := flip_ratio p in
    if fr <? #(-1) then q_pic q
    else if fr <? #0 then
      vadd (lscale (- fr) (vadd (q_v q) (q_flip q))) (lscale (#1 - (- fr)) (q_pic q))
    else
      vadd (lscale fr (vadd (q_v q) (q_flip q))) (lscale (#1 - fr) (q_pic q)).
  Definition set_v (q : P1) (v : TV) : P1 :=
    mkP1 (q_x q) v (q_pic q) (q_flip q) (q_h q) (q_F q) (q_B q) (q_tau q).
  Definition set_x (q : P1) (x : TV) : P1 :=
    mkP1 x (q_v q) (q_pic q) (q_flip q) (q_h q) (q_F q) (q_B q) (q_tau q).

  (** ** MUSL *)
  Definition musl_velocities (p : Par A) (sched : list nat) (P : Particles A)
    : res (Particles A * Flags) :=
    ploop (fun q => Ok (set_v q (new_velocity p q), (false, 0%nat))) sched P.

  (** musl.cpp:54-63 / 67-75 *)
  Definition musl_node (p : Par A) (xp vp : TV) (B : TM) (it : Item) (nd : Node A) : Node A :=
    let w := it_w it in
    let v1 := vadd (nd_v nd) (vscale vp w) in
    let v2 := if flip_ratio p <? #0
              then vadd v1 (vscale (vscale (mvec B (vsub (it_x it) xp)) (apicDinverse p)) w)
              else v1 in
    mkNode (nd_m nd) v2 (nd_flip nd) (nd_f nd) (nd_fr nd).
  Definition musl_item (p : Par A) (xp vp : TV) (B : TM) (nodes : list (Node A)) (it : Item)
    : res (list (Node A)) :=
    if it_w it >? w_min then upd nodes (it_idx it) (musl_node p xp vp B it) else Ok nodes.
  Definition musl_particle (p : Par A) (axes : list (Axis A)) (P : Particles A)
    (nodes : list (Node A)) (i : nat) : res (list (Node A)) :=
    let z := Z.of_nat i in
    xp <- rd (p_x P) z ;;
    vp <- rd (p_v P) z ;;
    B <- (if flip_ratio p <? #0 then rd (p_B P) z else Ok mzero) ;;
    items <- stencil base_p2g p axes xp ;;
    foldM (musl_item p xp vp B) items nodes.
  (** musl.cpp:81-86 *)
  Definition musl_merge (g l : list (Node A)) : list (Node A) :=
    map (fun ab => let '(a, b) := ab in
           mkNode (nd_m a) (vadd (nd_v a) (nd_v b)) (nd_flip a) (nd_f a) (nd_fr a)) (combine g l).
  Definition set_nv (nd : Node A) (v : TV) : Node A :=
    mkNode (nd_m nd) v (nd_flip nd) (nd_f nd) (nd_fr nd).
  (** musl.cpp:91-97 *)
  Definition musl_finish_node (p : Par A) (nd : Node A) : Node A :=
    set_nv nd (if nd_m nd >? #0 then vdivs (nd_v nd) (nd_m nd / particle_mass p) else vzero).
  (** musl.cpp:28-97 *)
  Definition musl_grid (p : Par A) (axes : list (Axis A)) (P : Particles A)
    (sched : list (list nat)) (nodes : list (Node A)) : res (list (Node A)) :=
    g <- foldM (fun g th =>
                  l <- foldM (musl_particle p axes P) th (repeat zero_node (length nodes)) ;;
                  Ok (musl_merge g l))
               sched (map (fun nd => set_nv nd vzero) nodes) ;;
    Ok (map (musl_finish_node p) g).

  (** ** deformationUpdate, deformation_update.cpp:6-68; :13 resets delta_gamma. *)
  Definition reset_dg (h : Hist A) : Hist A :=
    mkHist (h_dev h) (h_vol h) (h_prad h) #0 (h_visc h) (h_muI h).
  Definition def_particle (p : Par A) (axes : list (Axis A)) (nodes : list (Node A)) (dt : A)
    (q : P1) : res (P1 * Flags) :=
    items <- stencil base_g2p p axes (q_x q) ;;
    vgrad <- g_vgrad nodes items ;;
    strain_particle p dt vgrad
      (mkP1 (q_x q) (q_v q) (q_pic q) (q_flip q) (reset_dg (q_h q)) (q_F q) (q_B q) (q_tau q)).
  Definition deformationUpdate (p : Par A) (axes : list (Axis A)) (nodes : list (Node A)) (dt : A)
    (sched : list nat) (P : Particles A) : res (Particles A * Flags) :=
    ploop (def_particle p axes nodes dt) sched P.

  (** ** positionUpdate, position_update.cpp:6-46 *)
  Definition pbc_wrap (p : Par A) (x : TV) : TV :=            (* :26-33 *)
    if use_pbc p then
      if vget x 0 >? Lx p then vset x 0 (vget x 0 - Lx p)
      else if vget x 0 <? #0 then vset x 0 (Lx p + vget x 0)
      else x
    else x.
  Definition pos_hack (p : Par A) (x : TV) : TV :=            (* :38-43 *)
    if change_pos p then
      if vget x 0 >? 8//10 then vset (vset x 0 ((-1)//10)) 1 (vget x 1 + 27//100) else x
    else x.
  Definition pos_particle (p : Par A) (dt : A) (q : P1) : res (P1 * Flags) :=
    let x1 := vadd (q_x q) (lscale dt (q_pic q)) in
    let q1 := set_x q (pos_hack p (pbc_wrap p x1)) in
    Ok (if use_musl p then q1 else set_v q1 (new_velocity p q), (false, 0%nat)).
  Definition positionUpdate (p : Par A) (dt : A) (sched : list nat) (P : Particles A)
    : res (Particles A * Flags) :=
    ploop (pos_particle p dt) sched P.
End Transfer.
Arguments P1 A {G}.
Arguments PlOut A {G}.
Arguments Item A {G}.
Arguments AxItem A : clear implicits.
