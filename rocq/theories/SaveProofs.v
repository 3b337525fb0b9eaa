(** * SaveProofs: what is on disk at a crash point. *)
From Coq Require Import Reals ZArith Lra Lia List Bool Decimal DecimalZ.
From Verif Require Import Num NumR Tools Lin Types Remesh Transfer Step Save SpecTime.
Import ListNotations.

(** ** The text of last_written.txt *)
Lemma digits_inj : forall u v, digits u = digits v -> u = v.
Proof. induction u; destruct v; cbn; intros H; try discriminate; auto; injection H as H; f_equal; auto. Qed.
Lemma digits_range : forall u z, In z (digits u) -> (48 <= z <= 57)%Z.
Proof. induction u; cbn; intros z H; try tauto; destruct H as [<-|H]; try lia; auto. Qed.
Lemma no_newline : forall k, ~ In 10%Z (match Z.to_int k with Pos u => digits u | Neg u => 45%Z :: digits u end).
Proof. intros k H. destruct (Z.to_int k) as [u|u]; [|destruct H as [H|H]; [lia|]]; apply digits_range in H; lia. Qed.
Lemma line_prefix : forall a b : list Z, ~ In 10%Z a -> ~ In 10%Z b -> forall t, b ++ [10%Z] = (a ++ [10%Z]) ++ t -> a = b.
Proof.
  induction a as [|x a IH]; intros [|y b] Ha Hb t H; cbn in H.
  - reflexivity.
  - injection H as H _. destruct Hb. now left.
  - injection H as H _. destruct Ha. now left.
  - injection H as -> H. f_equal. eapply IH; eauto; intros X; [apply Ha|apply Hb]; now right.
Qed.
Lemma frame_line_prefix : forall j k t, frame_line j = frame_line k ++ t -> k = j.
Proof.
  intros j k t H. unfold frame_line in H. apply line_prefix in H; try apply no_newline.
  apply DecimalZ.to_int_inj. destruct (Z.to_int k) as [u|u] eqn:Ek, (Z.to_int j) as [v|v] eqn:Ej.
  - f_equal. now apply digits_inj.
  - exfalso. destruct u; cbn in H; discriminate.
  - exfalso. destruct v; cbn in H; discriminate.
  - injection H as H. f_equal. now apply digits_inj.
Qed.
Lemma frame_line_nonempty : forall k, frame_line k <> [].
Proof. intros k H. unfold frame_line in H. destruct (match Z.to_int k with Pos u => digits u | Neg u => 45%Z :: digits u end); discriminate. Qed.

(** ** Views: what is known about every file, whatever has been flushed *)
Inductive Vw := Absent | Opened (c : list Z) | Settled (c : list Z) | Unknown.
Definition vw_op (o : Op) (f : File) (v : Vw) : Vw :=
  match o with
  | Open g => if file_eqb f g then Settled [] else v
  | Write g bs => if file_eqb f g then match v with Opened c | Settled c => Opened (c ++ bs) | _ => Unknown end else v
  | Close g => if file_eqb f g then match v with Opened c | Settled c => Settled c | Absent => Settled [] | Unknown => Unknown end else v
  end.
Definition sees (v : Vw) (d : option (list Z)) (b : list Z) : Prop :=
  match v with
  | Absent => d = None /\ b = []
  | Opened c => exists x, d = Some x /\ x ++ b = c
  | Settled c => d = Some c /\ b = []
  | Unknown => True
  end.
Definition agrees (v : File -> Vw) (s : FS) : Prop := forall f, sees (v f) (disk s f) (buf s f).

Lemma agrees_op : forall o v s, agrees v s -> agrees (fun f => vw_op o f (v f)) (fs_op o s).
Proof.
  intros o v s H f. specialize (H f). destruct o as [g|g bs|g]; cbn [vw_op fs_op disk buf]; unfold setf; destruct (file_eqb f g) eqn:E; try exact H.
  - split; reflexivity.
  - assert (X : file_eqb f g = true -> f = g) by (destruct f, g; cbn; try discriminate; auto; intros Y; apply Z.eqb_eq in Y; now subst). rewrite (X E) in *. destruct (v g); cbn in *; auto.
    + destruct H as (x & -> & <-). exists x. split; auto. now rewrite app_assoc.
    + destruct H as (-> & ->). exists c. auto.
  - assert (X : file_eqb f g = true -> f = g) by (destruct f, g; cbn; try discriminate; auto; intros Y; apply Z.eqb_eq in Y; now subst). rewrite (X E) in *. destruct (v g); cbn in *; auto.
    + destruct H as (-> & ->). auto.
    + destruct H as (x & -> & <-). auto.
    + destruct H as (-> & ->). rewrite app_nil_r. auto.
Qed.
Lemma file_eqb_eq : forall f g, file_eqb f g = true -> f = g.
Proof. destruct f, g; cbn; try discriminate; auto; intros Y; apply Z.eqb_eq in Y; now subst. Qed.
Lemma agrees_flush : forall g n v s, agrees v s -> agrees v (fs_flush g n s).
Proof.
  intros g n v s H f. specialize (H f). unfold fs_flush, setf. cbn [disk buf]. destruct (file_eqb f g) eqn:E; auto. apply file_eqb_eq in E. subst g.
  destruct (v f); cbn in *; auto.
  - destruct H as (-> & ->). rewrite skipn_nil. auto.
  - destruct H as (x & -> & <-). exists (x ++ firstn n (buf s f)). split; auto. now rewrite <- app_assoc, firstn_skipn.
  - destruct H as (-> & ->). rewrite firstn_nil, skipn_nil, app_nil_r. auto.
Qed.
(** View of a file after a list of operations. *)
Definition vw_ops (ops : list Op) (f : File) (v : Vw) : Vw := fold_left (fun w o => vw_op o f w) ops v.
Lemma run_view : forall ops s rest s', fs_run ops s rest s' -> forall v, agrees v s ->
  exists done, ops = done ++ rest /\ agrees (fun f => vw_ops done f (v f)) s'.
Proof.
  induction 1 as [ops s|o ops s rest s' _ IH|g n ops s rest s' _ IH]; intros v H.
  - exists []. split; auto.
  - destruct (IH _ (agrees_op o v s H)) as (d & -> & A). exists (o :: d). split; auto.
  - destruct (IH _ (agrees_flush g n v s H)) as (d & -> & A). exists d. auto.
Qed.

(** ** Events *)
Section Events.
  Context {Ar : Type} {NA : Num Ar} {G : Geo Ar}.
  Variable ply plyg : St Ar -> list Z.
  Variable info : list Z.
  Variable timing : Z -> list Z.
  Notation ops_of := (ops_of ply plyg frame_line info timing).
  Definition ev_view (e : Ev Ar) (f : File) (v : Vw) : Vw :=
    match e, f with
    | EvParticles s, FPart k => if (k =? s_frame s)%Z then Settled (ply s) else v
    | EvParticles s, FLast => Settled (frame_line (s_frame s))
    | EvGrid s, FGrid k => if (k =? s_frame s)%Z then Settled (plyg s) else v
    | EvInfo, FInfo => Settled info
    | EvTiming n, FTiming => Settled (timing n)
    | _, _ => v
    end.
  Lemma ev_view_ops : forall e f v, vw_ops (ops_of e) f v = ev_view e f v.
  Proof.
    intros e f v. destruct e as [|s|s|n]; destruct f as [k|k| | |]; cbn [ops_of vw_ops fold_left vw_op file_eqb ops_particles ops_grid ev_view app]; auto;
    destruct (k =? s_frame s)%Z; cbn [app]; auto.
  Qed.
  Lemma vw_ops_app : forall a b f v, vw_ops (a ++ b) f v = vw_ops b f (vw_ops a f v).
  Proof. intros. unfold vw_ops. apply fold_left_app. Qed.
  Definition evs_view (ev : list (Ev Ar)) (f : File) (v : Vw) : Vw := fold_left (fun w e => ev_view e f w) ev v.
  Lemma evs_view_ops : forall ev f v, vw_ops (flat_map ops_of ev) f v = evs_view ev f v.
  Proof. induction ev as [|e ev IH]; intros f v; cbn [flat_map evs_view fold_left]; auto. rewrite vw_ops_app, ev_view_ops. apply IH. Qed.

  (** A prefix of the operations is a number of whole events and a part of one. *)
  Lemma ops_prefix : forall ev done rest, flat_map ops_of ev = done ++ rest ->
    exists ev1, (done = flat_map ops_of ev1 /\ exists ev2, ev = ev1 ++ ev2) \/
      exists e ev2 a b, ev = ev1 ++ e :: ev2 /\ ops_of e = a ++ b /\ done = flat_map ops_of ev1 ++ a.
  Proof.
    induction ev as [|e ev IH]; intros done rest H; cbn [flat_map] in H.
    - exists []. left. symmetry in H. apply app_eq_nil in H. destruct H as (-> & _). split; auto. now exists [].
    - destruct (Nat.le_gt_cases (length (ops_of e)) (length done)) as [L|L].
      + assert (D : done = ops_of e ++ skipn (length (ops_of e)) done).
        { rewrite <- (firstn_skipn (length (ops_of e)) done) at 1. f_equal.
          pose proof (f_equal (firstn (length (ops_of e))) H) as X. rewrite firstn_app, Nat.sub_diag, firstn_O, app_nil_r, firstn_all in X.
          rewrite firstn_app in X. replace (length (ops_of e) - length done)%nat with 0%nat in X by lia. rewrite firstn_O, app_nil_r in X. auto. }
        rewrite D in H. rewrite <- app_assoc in H. apply app_inv_head in H. destruct (IH _ _ H) as (ev1 & [(E & ev2 & ->)|(e' & ev2 & a & b & -> & E1 & E2)]); exists (e :: ev1).
        * left. cbn [flat_map]. rewrite D, E. split; auto. now exists ev2.
        * right. exists e', ev2, a, b. split; auto. split; auto. cbn [flat_map]. rewrite D, E2. now rewrite app_assoc.
      + exists []. right. exists e, ev, done, (skipn (length done) (ops_of e)). split; auto. split; auto.
        rewrite <- (firstn_skipn (length done) (ops_of e)) at 1. f_equal.
        pose proof (f_equal (firstn (length done)) H) as X. rewrite firstn_app in X. replace (length done - length (ops_of e))%nat with 0%nat in X by lia.
        rewrite firstn_O, app_nil_r in X. rewrite X. rewrite firstn_app, Nat.sub_diag, firstn_O, app_nil_r, firstn_all. auto.
  Qed.
  (** Views after whole events. *)
  Lemma view_part : forall ev k v, In k (map s_frame (particle_files ev)) -> exists s, In s (particle_files ev) /\ s_frame s = k /\ evs_view ev (FPart k) v = Settled (ply s).
  Proof.
    intros ev. induction ev as [|e ev IH] using rev_ind; intros k v Hk; [destruct Hk|].
    unfold evs_view in *. rewrite fold_left_app. cbn [fold_left]. unfold particle_files in *. rewrite flat_map_app in *. cbn [flat_map] in *. rewrite app_nil_r in *.
    assert (Old : In k (map s_frame (flat_map (fun e => match e with EvParticles s => [s] | _ => [] end) ev)) -> ev_view e (FPart k) (fold_left (fun w e => ev_view e (FPart k) w) ev v) = fold_left (fun w e => ev_view e (FPart k) w) ev v ->
      exists s, In s (flat_map (fun e => match e with EvParticles s => [s] | _ => [] end) ev ++ match e with EvParticles s => [s] | _ => [] end) /\ s_frame s = k /\ ev_view e (FPart k) (fold_left (fun w e => ev_view e (FPart k) w) ev v) = Settled (ply s)).
    { intros H E. rewrite E. destruct (IH k v H) as (s & A & B & C). exists s. split; [apply in_or_app; now left|]. auto. }
    rewrite map_app in Hk. apply in_app_or in Hk. destruct e as [|s|s|n]; cbn [map ev_view] in *; try (destruct Hk as [Hk|[]]; now apply Old).
    destruct (Z.eqb_spec k (s_frame s)) as [->|N].
    - exists s. split; [apply in_or_app; right; now left|]. auto.
    - destruct Hk as [Hk|[Hk|[]]]; [now apply Old|congruence].
  Qed.
  Lemma view_last : forall ev v, (particle_files ev = [] /\ evs_view ev FLast v = v) \/
    exists fs s, particle_files ev = fs ++ [s] /\ evs_view ev FLast v = Settled (frame_line (s_frame s)).
  Proof.
    intros ev. induction ev as [|e ev IH] using rev_ind; intros v; [now left|].
    unfold evs_view in *. rewrite fold_left_app. cbn [fold_left]. unfold particle_files in *. rewrite flat_map_app. cbn [flat_map]. rewrite app_nil_r.
    destruct e as [|s|s|n]; cbn [ev_view]; rewrite ?app_nil_r; auto. right. eexists. exists s. split; reflexivity.
  Qed.
  (** Views inside an event. *)
  Lemma part_views : forall e a b, ops_of e = a ++ b -> forall f v,
    (vw_ops a f v = v \/ (f = FLast /\ a <> [] /\ exists s, e = EvParticles s /\ (vw_ops a f v = Settled [] \/ vw_ops a f v = Opened (frame_line (s_frame s)) \/ vw_ops a f v = Settled (frame_line (s_frame s)))) \/
     f <> FLast) /\
    (forall k, f = FPart k -> (forall s, e = EvParticles s -> k <> s_frame s) -> vw_ops a f v = v).
  Proof.
    intros e a b H f v. split.
    - destruct (match f with FLast => true | _ => false end) eqn:Ef; [|right; right; intros ->; discriminate]. destruct f; try discriminate.
      destruct e as [|s|s|n]; cbn in H.
      1,3,4: left; do 3 (destruct a as [|? a]; [reflexivity|cbn in H; injection H as <- H]); destruct a; [reflexivity|discriminate].
      do 3 (destruct a as [|? a]; [now left|cbn in H; injection H as <- H]).
      1: right; left; split; [auto|split; [discriminate|]]; exists s; split; auto; destruct a as [|? a]; [now left|cbn in H; injection H as <- H]; destruct a as [|? a]; [right; left; reflexivity|cbn in H; injection H as <- H].
      all: destruct a as [|? a]; [cbn; auto|cbn in H; injection H as <- H]; destruct a; [cbn; auto|discriminate].
    - intros k -> N. destruct e as [|s|s|n]; cbn in H.
      1,3,4: do 3 (destruct a as [|? a]; [reflexivity|cbn in H; injection H as <- H]); destruct a; [reflexivity|discriminate].
      assert (X : (k =? s_frame s)%Z = false) by (apply Z.eqb_neq; auto).
      do 6 (destruct a as [|? a]; [cbn; rewrite ?X; reflexivity|cbn in H; injection H as <- H]). destruct a; [cbn; rewrite ?X; reflexivity|discriminate].
  Qed.
End Events.
