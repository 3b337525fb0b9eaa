(** * Threads: the OpenMP loops of /repo/src/simulation at the level of single memory accesses. *)
From Coq Require Import ZArith List Bool.
From Verif Require Import Num Tools Lin Types Remesh Objects Transfer.
Import ListNotations.
Local Open Scope num_scope.

Section Threads.
  Context {A : Type} {NA : Num A} {G : Geo A}.

  (** Memory locations that a parallel loop touches: entry [i] of a particle array or of a grid array
      (data_structures.hpp:10-70), the counter of yielding particles, the member [exit]
      (simulation.hpp), and the object particles.x itself (its pointers to the entries, which
      push_back changes).  Simplifications: a vector or a matrix is one location, and so are the
      six history arrays at one index; the coordinates of the grid and the parameters are
      constants, since no parallel loop writes them. *)
  Inductive Loc :=
  | PX (i : Z) | PV (i : Z) | PPic (i : Z) | PFlip (i : Z) | PHist (i : Z) | PF (i : Z) | PB (i : Z) | PTau (i : Z)
  | GM (i : Z) | GV (i : Z) | GFlip (i : Z) | GF (i : Z) | GFr (i : Z) | Count | Exit | XVec.
  Inductive Val := VA (a : A) | VV (v : TV) | VM (m : TM) | VH (h : Hist A) | VN (n : nat) | VB (b : bool).
  (** What a thread still has to do: loads and stores of shared memory, and entering and leaving the
      critical section.  Private variables are values of the metalanguage. *)
  Inductive Prog :=
  | Done | Fail | Load (l : Loc) (k : Val -> Prog) | Store (l : Loc) (v : Val) (k : Prog) | Acquire (k : Prog) | Release (k : Prog).
  Definition Mem : Type := Loc -> option Val.
  Definition Loc_eq_dec (a b : Loc) : {a = b} + {a <> b}.
  Proof. decide equality; apply Z.eq_dec. Defined.
  Definition mset (m : Mem) (l : Loc) (v : Val) : Mem := fun l' => if Loc_eq_dec l l' then Some v else m l'.

  (** ** The machine: at each step some thread performs its next action.  [None]: a thread has accessed
      memory outside an array, or computed something undefined. *)
  Record Conf := mkConf { c_mem : Mem; c_thr : list Prog; c_lock : option nat }.
  Fixpoint set_nth {X} (t : nat) (x : X) (l : list X) : list X :=
    match l, t with [], _ => [] | _ :: r, O => x :: r | y :: r, S t' => y :: set_nth t' x r end.
  Inductive step : option Conf -> option Conf -> Prop :=
  | st_load : forall m ts lk t l k v, nth_error ts t = Some (Load l k) -> m l = Some v ->
      step (Some (mkConf m ts lk)) (Some (mkConf m (set_nth t (k v) ts) lk))
  | st_store : forall m ts lk t l v k, nth_error ts t = Some (Store l v k) -> m l <> None ->
      step (Some (mkConf m ts lk)) (Some (mkConf (mset m l v) (set_nth t k ts) lk))
  | st_acquire : forall m ts t k, nth_error ts t = Some (Acquire k) ->
      step (Some (mkConf m ts None)) (Some (mkConf m (set_nth t k ts) (Some t)))
  | st_release : forall m ts t k, nth_error ts t = Some (Release k) ->
      step (Some (mkConf m ts (Some t))) (Some (mkConf m (set_nth t k ts) None))
  | st_wild_load : forall m ts lk t l k, nth_error ts t = Some (Load l k) -> m l = None -> step (Some (mkConf m ts lk)) None
  | st_wild_store : forall m ts lk t l v k, nth_error ts t = Some (Store l v k) -> m l = None -> step (Some (mkConf m ts lk)) None
  | st_fail : forall m ts lk t, nth_error ts t = Some Fail -> step (Some (mkConf m ts lk)) None.

  (** The memory that holds these particles, nodes, count and flag. *)
  Definition slot {X} (l : list X) (i : Z) : option X := match rd l i with Ok x => Some x | _ => None end.
  Definition mem_of (P : Particles A) (nodes : list (Node A)) (cnt : nat) (ex : bool) : Mem := fun l =>
    match l with
    | PX i => option_map VV (slot (p_x P) i) | PV i => option_map VV (slot (p_v P) i)
    | PPic i => option_map VV (slot (p_pic P) i) | PFlip i => option_map VV (slot (p_flip P) i)
    | PHist i => option_map VH (slot (p_hist P) i) | PF i => option_map VM (slot (p_F P) i)
    | PB i => option_map VM (slot (p_B P) i) | PTau i => option_map VM (slot (p_tau P) i)
    | GM i => option_map (fun nd => VA (nd_m nd)) (slot nodes i) | GV i => option_map (fun nd => VV (nd_v nd)) (slot nodes i)
    | GFlip i => option_map (fun nd => VV (nd_flip nd)) (slot nodes i) | GF i => option_map (fun nd => VV (nd_f nd)) (slot nodes i)
    | GFr i => option_map (fun nd => VA (nd_fr nd)) (slot nodes i)
    | Count => Some (VN cnt) | Exit => Some (VB ex) | XVec => Some (VN (length (p_x P)))
    end.

  (** Typed loads; [ret]: a private computation that may be undefined. *)
  Definition loadA (l : Loc) (k : A -> Prog) : Prog := Load l (fun v => match v with VA x => k x | _ => Fail end).
  Definition loadV (l : Loc) (k : TV -> Prog) : Prog := Load l (fun v => match v with VV x => k x | _ => Fail end).
  Definition loadM (l : Loc) (k : TM -> Prog) : Prog := Load l (fun v => match v with VM x => k x | _ => Fail end).
  Definition loadH (l : Loc) (k : Hist A -> Prog) : Prog := Load l (fun v => match v with VH x => k x | _ => Fail end).
  Definition loadN (l : Loc) (k : nat -> Prog) : Prog := Load l (fun v => match v with VN x => k x | _ => Fail end).
  Definition ret {X} (r : res X) (k : X -> Prog) : Prog := match r with Ok x => k x | _ => Fail end.

  (** A parallel loop: thread [th] performs its iterations one after the other. *)
  Definition thread_of (iter : nat -> Prog -> Prog) (th : list nat) : Prog := fold_right iter Done th.

  Variable p : Par A.

  (** ** Velocity and position updates: musl.cpp:13-25, position_update.cpp:8-45 *)
  Definition vel_iter (i : nat) (k : Prog) : Prog :=
    let z := Z.of_nat i in let fr := flip_ratio p in
    if fr <? #(-1) then loadV (PPic z) (fun pic => Store (PV z) (VV pic) k)
    else if fr <? #0 then loadV (PV z) (fun v => loadV (PFlip z) (fun fl => loadV (PPic z) (fun pic =>
      Store (PV z) (VV (vadd (lscale (- fr) (vadd v fl)) (lscale (#1 - (- fr)) pic))) k)))
    else loadV (PV z) (fun v => loadV (PFlip z) (fun fl => loadV (PPic z) (fun pic =>
      Store (PV z) (VV (vadd (lscale fr (vadd v fl)) (lscale (#1 - fr) pic))) k))).
  Definition pos_iter (dt : A) (i : nat) (k : Prog) : Prog :=
    let z := Z.of_nat i in
    loadV (PX z) (fun x => loadV (PPic z) (fun pic => Store (PX z) (VV (vadd x (lscale dt pic)))
      ((if use_musl p then fun k => k else vel_iter i)
      ((if use_pbc p then fun k => loadV (PX z) (fun x =>
          if vget x 0 >? Lx p then Store (PX z) (VV (vset x 0 (vget x 0 - Lx p))) k
          else if vget x 0 <? #0 then Store (PX z) (VV (vset x 0 (Lx p + vget x 0))) k
          else k) else fun k => k)
      ((if change_pos p then fun k => loadV (PX z) (fun x =>
          if vget x 0 >? 8//10 then Store (PX z) (VV (vset (vset x 0 ((-1)//10)) 1 (vget x 1 + 27//100))) k
          else k) else fun k => k) k))))).

  (** ** PBCAddParticles, pbc.cpp:43-80.  particles.x[p] (:46) reads the vector object and then the
      entry; push_back (:53, :68), in the critical section, reads and writes the vector object.
      Simplifications: the other four push_backs and the new entries are left out; here, and only
      here, the vector object is a location (the other loops run while nobody calls push_back). *)
  Definition pbc_push (k : Prog) : Prog := Acquire (loadN XVec (fun n => Store XVec (VN (S n)) (Release k))).
  Definition pbc_iter (safety : Z) (i : nat) (k : Prog) : Prog :=
    loadN XVec (fun _ => loadV (PX (Z.of_nat i)) (fun x =>
      let diff := Lx p - vget x 0 in
      if (diff <? #safety * dx p) && (diff >? #0) then pbc_push k
      else let diff := vget x 0 in
        if (diff <? #safety * dx p) && (diff >=? #0) then pbc_push k else k)).

  (** ** G2P and deformationUpdate *)
  Variable plast : Par A -> A -> TM -> TM -> Hist A -> res (PlOut A).
  Variable axes : list (Axis A).

  (** g2p.cpp:35-82: the loop over the stencil; grid.v is loaded for each use. *)
  Fixpoint gather_prog (xp : TV) (items : list (Item A)) (pic : TV) (vgrad B : TM) (fl : TV) (k : TV -> TM -> TM -> TV -> Prog) : Prog :=
    match items with
    | [] => k pic vgrad B fl
    | it :: r =>
        let z := it_idx it in
        loadV (GV z) (fun v1 => loadV (GV z) (fun v2 =>
          let pic' := vadd pic (vscale v1 (it_w it)) in let vgrad' := madd vgrad (mouter v2 (it_g it)) in
          (if flip_ratio p <? #0
           then fun k1 => loadV (GV z) (fun v3 => k1 (madd B (mscale (mouter v3 (vsub (it_x it) xp)) (it_w it))))
           else fun k1 => k1 B) (fun B' =>
          (if flip_ratio p >=? #(-1)
           then fun k2 => loadV (GFlip z) (fun f => k2 (vadd fl (vscale f (it_w it))))
           else fun k2 => k2 fl) (fun fl' =>
          gather_prog xp r pic' vgrad' B' fl' k))))
    end.
  (** plastic_count++, [n] times; private if the loop has a reduction clause. *)
  Fixpoint bump (n : nat) (k : Prog) : Prog :=
    match n with O => k | S n' => loadN Count (fun c => Store Count (VN (S c)) (bump n' k)) end.
  (** plasticity.cpp: reads and writes F, tau and the history of the particle, increments the counter
      (plasticity.cpp:54 and copies), may set [exit] (:211 and copies).  Simplification: all reads
      come before all writes (every location but the last two has the index of the particle). *)
  Definition plastic_iter (private : bool) (dt : A) (z : Z) (Ft : TM) (k : Prog) : Prog :=
    loadM (PTau z) (fun tau => loadH (PHist z) (fun h => ret (plast p dt Ft tau h) (fun o =>
      Store (PF z) (VM (o_F o)) (Store (PTau z) (VM (o_tau o)) (Store (PHist z) (VH (o_h o))
        (bump (if private then O else o_count o) (if o_exit o then Store Exit (VB true) k else k))))))).
  (** g2p.cpp:97-101, deformation_update.cpp:57-61 *)
  Definition strain_iter (private : bool) (dt : A) (z : Z) (vgrad : TM) (k : Prog) : Prog :=
    loadM (PF z) (fun F => let Ft := F_trial dt vgrad F in Store (PF z) (VM Ft) (plastic_iter private dt z Ft k)).
  (** g2p.cpp:23-104 *)
  Definition g2p_iter (dt : A) (i : nat) (k : Prog) : Prog :=
    let z := Z.of_nat i in
    loadV (PX z) (fun xp => ret (stencil base_g2p p axes xp) (fun items =>
      gather_prog xp items vzero mzero mzero vzero (fun pic vgrad B fl =>
        Store (PPic z) (VV pic)
        ((if flip_ratio p <? #0 then Store (PB z) (VM B) else fun k => k)
        ((if flip_ratio p >=? #(-1) then Store (PFlip z) (VV fl) else fun k => k)
        (if use_musl p then k else strain_iter false dt z vgrad k)))))).
  (** g2p.cpp:15-17, before the loop. *)
  Definition g2p_fill (P : Particles A) : Particles A :=
    mkParticles (p_x P) (p_v P) (map (fun _ => vzero) (p_pic P)) (map (fun _ => vzero) (p_flip P)) (p_hist P) (p_F P) (map (fun _ => mzero) (p_B P)) (p_tau P).

  (** deformation_update.cpp:28-55: the loop over the stencil. *)
  Fixpoint vgrad_prog (items : list (Item A)) (vgrad : TM) (k : TM -> Prog) : Prog :=
    match items with
    | [] => k vgrad
    | it :: r => loadV (GV (it_idx it)) (fun v => vgrad_prog r (madd vgrad (mouter v (it_g it))) k)
    end.
  (** deformation_update.cpp:16-63, with its reduction clause. *)
  Definition def_iter (dt : A) (i : nat) (k : Prog) : Prog :=
    let z := Z.of_nat i in
    loadV (PX z) (fun xp => ret (stencil base_g2p p axes xp) (fun items => vgrad_prog items mzero (fun vgrad => strain_iter true dt z vgrad k))).
  (** deformation_update.cpp:13, before the loop. *)
  Definition def_fill (P : Particles A) : Particles A :=
    mkParticles (p_x P) (p_v P) (p_pic P) (p_flip P) (map reset_dg (p_hist P)) (p_F P) (p_B P) (p_tau P).

  (** ** Loops over nodes *)
  (** explicit_euler_update.cpp:20-66; [nl] lists index and position of every node.  Simplification:
      grid.friction is read also if use_mibf is false. *)
  Definition euler_iter (plates : list (Plate A)) (dt : A) (grav : TV) (nl : list (Z * TV)) (i : nat) (k : Prog) : Prog :=
    ret (rd nl (Z.of_nat i)) (fun ix => let z := fst ix in
      loadA (GM z) (fun mi =>
        if mi >? #0 then
          loadV (GF z) (fun f => loadV (GV z) (fun old => loadA (GFr z) (fun fr =>
            let incr := vadd (vdivs (lscale (- (dt * particle_volume p)) f) mi) (lscale dt grav) in
            ret (boundaryCollision p plates dt fr (snd ix) (vadd old incr)) (fun new =>
              Store (GV z) (VV new) (Store (GFlip z) (VV (vsub new old)) k)))))
        else k)).
  (** p2g.cpp:121-132 *)
  Definition average_iter (i : nat) (k : Prog) : Prog :=
    let z := Z.of_nat i in
    loadA (GM z) (fun mi =>
      (if mi >? #0 then fun k => loadV (GV z) (fun v => Store (GV z) (VV (vdivs v mi)) k)
       else Store (GV z) (VV vzero))
      (if use_mibf p then loadA (GFr z) (fun fr => Store (GFr z) (VA (fr / mi)) k) else k)).
  Definition average_node (nd : Node A) : Node A :=
    mkNode (nd_m nd) (if nd_m nd >? #0 then vdivs (nd_v nd) (nd_m nd) else vzero) (nd_flip nd) (nd_f nd)
           (if use_mibf p then nd_fr nd / nd_m nd else nd_fr nd).
  (** p2g.cpp:134-136, after the loop. *)
  Definition scale_mass (nd : Node A) : Node A := mkNode (nd_m nd * particle_mass p) (nd_v nd) (nd_flip nd) (nd_f nd) (nd_fr nd).

  (** ** Projections with private buffers and a critical section *)
  (** p2g.cpp:43-99 on the buffers [loc]; v, Bmat and muI are loaded at each node. *)
  Fixpoint spread_prog (xp : TV) (tau : TM) (z : Z) (items : list (Item A)) (loc : list (Node A)) (k : list (Node A) -> Prog) : Prog :=
    match items with
    | [] => k loc
    | it :: r =>
        if it_w it >? w_min then
          loadV (PV z) (fun vp =>
          (if flip_ratio p <? #0 then loadM (PB z) else fun k1 => k1 mzero) (fun B =>
          (if use_mibf p then fun k2 => loadH (PHist z) (fun h => k2 (h_muI h)) else fun k2 => k2 #0) (fun mui =>
          ret (upd loc (it_idx it) (p2g_node p xp vp B tau mui it)) (fun loc' => spread_prog xp tau z r loc' k))))
        else spread_prog xp tau z r loc k
    end.
  Fixpoint spread_thread (th : list nat) (loc : list (Node A)) (k : list (Node A) -> Prog) : Prog :=
    match th with
    | [] => k loc
    | i :: r => let z := Z.of_nat i in
        loadV (PX z) (fun xp => loadM (PTau z) (fun tau => ret (stencil base_p2g p axes xp) (fun items =>
          spread_prog xp tau z items loc (fun loc' => spread_thread r loc' k))))
    end.
  (** p2g.cpp:104-114, node [z] and following. *)
  Fixpoint merge_prog (loc : list (Node A)) (z : Z) (k : Prog) : Prog :=
    match loc with
    | [] => k
    | nd :: r =>
        loadA (GM z) (fun m => Store (GM z) (VA (m + nd_m nd))
        (loadV (GV z) (fun v => Store (GV z) (VV (vadd v (nd_v nd)))
        (loadV (GF z) (fun f => Store (GF z) (VV (vadd f (nd_f nd)))
        ((if use_mibf p then fun k => loadA (GFr z) (fun fr => Store (GFr z) (VA (fr + nd_fr nd)) k) else fun k => k)
        (merge_prog r (z + 1)%Z k)))))))
    end.
  (** p2g.cpp:12-116: one thread. *)
  Definition p2g_prog (grid_nodes : nat) (th : list nat) : Prog :=
    spread_thread th (repeat zero_node grid_nodes) (fun loc => Acquire (merge_prog loc 0 (Release Done))).

  (** musl.cpp:36-78 *)
  Fixpoint mspread_prog (xp : TV) (z : Z) (items : list (Item A)) (loc : list (Node A)) (k : list (Node A) -> Prog) : Prog :=
    match items with
    | [] => k loc
    | it :: r =>
        if it_w it >? w_min then
          loadV (PV z) (fun vp =>
          (if flip_ratio p <? #0 then loadM (PB z) else fun k1 => k1 mzero) (fun B =>
          ret (upd loc (it_idx it) (musl_node p xp vp B it)) (fun loc' => mspread_prog xp z r loc' k)))
        else mspread_prog xp z r loc k
    end.
  Fixpoint mspread_thread (th : list nat) (loc : list (Node A)) (k : list (Node A) -> Prog) : Prog :=
    match th with
    | [] => k loc
    | i :: r => let z := Z.of_nat i in
        loadV (PX z) (fun xp => ret (stencil base_p2g p axes xp) (fun items =>
          mspread_prog xp z items loc (fun loc' => mspread_thread r loc' k)))
    end.
  (** musl.cpp:81-86 *)
  Fixpoint mmerge_prog (loc : list (Node A)) (z : Z) (k : Prog) : Prog :=
    match loc with
    | [] => k
    | nd :: r => loadV (GV z) (fun v => Store (GV z) (VV (vadd v (nd_v nd))) (mmerge_prog r (z + 1)%Z k))
    end.
  (** musl.cpp:30-88: one thread. *)
  Definition musl_prog (grid_nodes : nat) (th : list nat) : Prog :=
    mspread_thread th (repeat zero_node grid_nodes) (fun loc => Acquire (mmerge_prog loc 0 (Release Done))).
End Threads.
Arguments Val A {G}.
Arguments Prog A {G}.
Arguments Mem A {G}.
Arguments Conf A {G}.
