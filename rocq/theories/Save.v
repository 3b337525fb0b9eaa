(** * Save: output of particle data, averages and the file system.
    /repo/src/simulation/save_data.cpp *)
From Coq Require Import ZArith List Bool Decimal.
From Verif Require Import Num Tools Lin Types Remesh Transfer Step.
Import ListNotations.
Local Open Scope num_scope.

Section Save.
  Context {A : Type} {NA : Num A} {G : Geo A}.

  (** save_data.cpp:28-32: determinant, pressure and shear stress of one particle. *)
  Definition save_Je (F : TM) : A := mdet F.
  Definition save_p (tau : TM) : A := - mtrace tau / dimA.
  Definition save_q (p : Par A) (tau : TM) : A :=
    let pr := save_p tau in
    q_prefac p * nsqrt (mdd (madd tau (mlscale pr mident))).

  (** save_data.cpp:180-197: positions written for the grid nodes, in row order. *)
  Definition grid_x_save (axes : list (Axis A)) : list TV :=
    match axes with
    | [ax; ay] => flat_map (fun x => map (fun y => vset (vset vzero 0 x) 1 y) (ax_co ay)) (ax_co ax)
    | [ax; ay; az] =>
        flat_map (fun x => flat_map (fun y => map (fun z =>
          vset (vset (vset vzero 0 x) 1 y) 2 z) (ax_co az)) (ax_co ay)) (ax_co ax)
    | _ => []
    end.

  (** save_data.cpp:263-295: (volavg_cauchy, volavg_kirchh, Javg). *)
  Definition avg_J (F : TM) (h : Hist A) : A := mdet F * nexp (h_vol h).
  Definition computeAvgData (P : Particles A) (n : nat) : res (TM * TM * A) :=
    s <- foldM (fun s i =>
                  let '(c, k, j) := s in
                  let z := Z.of_nat i in
                  F <- rd (p_F P) z ;; tau <- rd (p_tau P) z ;; h <- rd (p_hist P) z ;;
                  let J := avg_J F h in
                  Ok (madd c tau, madd k (mscale tau J), j + J))
               (seq 0 n) (mzero, mzero, #0) ;;
    let '(c, k, j) := s in
    Ok (mdivs c j, mdivs k j, j / #(Z.of_nat n)).

  (** simulation.cpp:287-312: whether exit is set.  Simplification: the sum over (i,j(,k)) through
      ind() is the sum over the node array in storage order (theorem C07). *)
  Definition grid_momentum (nodes : list (Node A)) : TV :=
    fold_left (fun a nd => vadd a (lscale (nd_m nd) (nd_v nd))) nodes vzero.
  Definition particle_momentum (p : Par A) (vs : list TV) : TV :=
    fold_left (fun a v => vadd a (lscale (particle_mass p) v)) vs vzero.
  Definition checkMomentum (p : Par A) (nodes : list (Node A)) (vs : list TV) : bool :=
    let g := grid_momentum nodes in
    let q := particle_momentum p vs in
    vnorm (vsub g q) >? nofQ 1 10000000000 * vnorm q.

  (** simulation.cpp:314-328 *)
  Definition checkMass (p : Par A) (nodes : list (Node A)) (np : Z) : bool :=
    let pm := particle_mass p * #np in
    let gm := nsum (map (fun nd => nd_m nd) nodes) in
    nabs (gm - pm) >? nofQ 1 10000000000 * pm.

  (** ** Files *)

  (** Names of the files in the output directory written by simulate(), save_data.cpp:40, 166,
      174, 357, 368.  Simplification: file names are not strings. *)
  Inductive File := FPart (frame : Z) | FGrid (frame : Z) | FLast | FInfo | FTiming.

  (** Operations on std::ofstream objects. *)
  Inductive Op :=
  | Open (f : File)                  (* open for writing, truncating: :41-42, :166 *)
  | Write (f : File) (bs : list Z)   (* operator<< / tinyply write: into the stream buffer *)
  | Close (f : File).                (* close() or destructor: flush the buffer *)

  (** Serialisations: tinyply's output for a state, for a grid, the decimal text of a number with
      newline, and the texts of info.txt and info_timing.txt.  Arbitrary functions. *)
  Variable ply : St A -> list Z.
  Variable plyg : St A -> list Z.
  Variable num_line : Z -> list Z.
  Variable info : list Z.
  Variable timing : Z -> list Z.

  (** save_data.cpp:40-170: the particle stream is closed by its destructor at the end of the
      function, after last_written.txt. *)
  Definition ops_particles (s : St A) : list Op :=
    let f := FPart (s_frame s) in
    [Open f; Write f (ply s); Open FLast; Write FLast (num_line (s_frame s)); Close FLast; Close f].
  (** save_data.cpp:172-258 *)
  Definition ops_grid (s : St A) : list Op :=
    let f := FGrid (s_frame s) in [Open f; Write f (plyg s); Close f].
  (** save_data.cpp:355-376 *)
  Definition ops_of (e : Ev A) : list Op :=
    match e with
    | EvInfo => [Open FInfo; Write FInfo info; Close FInfo]
    | EvParticles s => ops_particles s
    | EvGrid s => ops_grid s
    | EvTiming n => [Open FTiming; Write FTiming (timing n); Close FTiming]
    end.

  Definition file_eqb (a b : File) : bool :=
    match a, b with
    | FPart i, FPart j | FGrid i, FGrid j => (i =? j)%Z
    | FLast, FLast | FInfo, FInfo | FTiming, FTiming => true
    | _, _ => false
    end.

  (** What is on disk (survives a crash of the process) and what is in stream buffers. *)
  Record FS := mkFS { disk : File -> option (list Z); buf : File -> list Z }.
  Definition setf {X} (m : File -> X) (f : File) (x : X) : File -> X :=
    fun g => if file_eqb g f then x else m g.
  Definition fs_op (o : Op) (s : FS) : FS :=
    match o with
    | Open f => mkFS (setf (disk s) f (Some [])) (setf (buf s) f [])
    | Write f bs => mkFS (disk s) (setf (buf s) f (buf s f ++ bs))
    | Close f => mkFS (setf (disk s) f (Some (match disk s f with Some d => d | None => [] end
                                              ++ buf s f))) (setf (buf s) f [])
    end.
  (** The stream may write out any prefix of its buffer at any time. *)
  Definition fs_flush (f : File) (n : nat) (s : FS) : FS :=
    mkFS (setf (disk s) f (match disk s f with Some d => Some (d ++ firstn n (buf s f))
                                             | None => None end))
         (setf (buf s) f (skipn n (buf s f))).

  (** [fs_run ops done rest s s']: executing a prefix [done] of [ops] with arbitrary flushes in
      between leads from [s] to [s'] (the crash point), [rest] not executed yet. *)
  Inductive fs_run : list Op -> FS -> list Op -> FS -> Prop :=
  | fs_here : forall ops s, fs_run ops s ops s
  | fs_exec : forall o ops s rest s', fs_run ops (fs_op o s) rest s' -> fs_run (o :: ops) s rest s'
  | fs_fl : forall f n ops s rest s', fs_run ops (fs_flush f n s) rest s' -> fs_run ops s rest s'.
End Save.

(** save_data.cpp:166-167: std::to_string(frame) followed by a newline, as ASCII codes. *)
Fixpoint digits (u : Decimal.uint) : list Z :=
  match u with
  | Nil => [] | D0 u => 48%Z :: digits u | D1 u => 49%Z :: digits u | D2 u => 50%Z :: digits u
  | D3 u => 51%Z :: digits u | D4 u => 52%Z :: digits u | D5 u => 53%Z :: digits u
  | D6 u => 54%Z :: digits u | D7 u => 55%Z :: digits u | D8 u => 56%Z :: digits u
  | D9 u => 57%Z :: digits u
  end.
Definition frame_line (frame : Z) : list Z :=
  match Z.to_int frame with Pos u => digits u | Neg u => 45%Z :: digits u end ++ [10%Z].
