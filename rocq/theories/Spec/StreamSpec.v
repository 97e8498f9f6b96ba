(** An arranged input of an operator, and everything that may happen to it outside the operator.

    The input is a trace shared with others, and a stream of the batches inserted into it.  Batches are
    inserted in order, each where the previous one ended; they are put on the stream when inserted, unless
    they are empty, in which case they may be left out.  Others may work on the trace and compact it, but
    not beyond what the operator's handle on the trace allows.  The stream delivers batches in order, in
    messages that carry a time at or below those of their updates, and reports a frontier: no later
    message, and no later update, is at a time that is not at or beyond it. *)
From Verif Require Export Spec.BatchLaws.

Section Stream.
Context {B M D T R : Type} {OD : Ord D} {TT : Time T} {DR : Diff R}.
Variable ops : BatchOps B M T.
Variable contents : B -> list (D * T * R).
Variable laws : BatchLaws ops contents.

Record side := {
  sd_spine : Spine B M T;
  sd_hist : list B;                 (** batches inserted *)
  sd_upper : list T; sd_logical : list T; sd_physical : list T;
  sd_flight : list B;               (** batches on the stream, not delivered yet *)
  sd_front : list T                 (** the frontier last reported to the operator *)
}.

(** all updates of a batch are at times beyond a frontier *)
Definition times_beyond (F : list T) (b : B) : Prop := Forall (fun u => beyond F (snd (fst u))) (contents b).

(** What the operator's handle allows: its logical and physical compaction frontiers; nothing is held back
    once the handle is dropped. *)
Definition allowed (handle : option (list T * list T)) (L P : list T) : Prop :=
  match handle with
  | Some (HL, HP) => (forall t, beyond HL t -> beyond L t) /\ (forall t, beyond HP t -> beyond P t)
  | None => True
  end.

Inductive side_env (handle : option (list T * list T)) : side -> side -> Prop :=
| se_insert : forall s h up L P q F b s', proper ops contents laws b -> same_future (lower_of ops b) up ->
    (forall t, beyond L t -> beyond (since_of ops b) t) -> times_beyond F b -> spine_insert ops s b = Some s' ->
    side_env handle {| sd_spine := s; sd_hist := h; sd_upper := up; sd_logical := L; sd_physical := P; sd_flight := q; sd_front := F |}
      {| sd_spine := s'; sd_hist := h ++ [b]; sd_upper := upper_of ops b; sd_logical := L; sd_physical := P; sd_flight := q ++ [b]; sd_front := F |}
| se_insert_quietly : forall s h up L P q F b s', proper ops contents laws b -> same_future (lower_of ops b) up ->
    (forall t, beyond L t -> beyond (since_of ops b) t) -> contents b = [] -> spine_insert ops s b = Some s' ->
    side_env handle {| sd_spine := s; sd_hist := h; sd_upper := up; sd_logical := L; sd_physical := P; sd_flight := q; sd_front := F |}
      {| sd_spine := s'; sd_hist := h ++ [b]; sd_upper := upper_of ops b; sd_logical := L; sd_physical := P; sd_flight := q; sd_front := F |}
| se_exert : forall s h up L P q F answer s', spine_exert ops s answer = Some s' ->
    side_env handle {| sd_spine := s; sd_hist := h; sd_upper := up; sd_logical := L; sd_physical := P; sd_flight := q; sd_front := F |}
      {| sd_spine := s'; sd_hist := h; sd_upper := up; sd_logical := L; sd_physical := P; sd_flight := q; sd_front := F |}
| se_logical : forall s h up L P q F L', (forall t, beyond L' t -> beyond L t) -> allowed handle L' P ->
    side_env handle {| sd_spine := s; sd_hist := h; sd_upper := up; sd_logical := L; sd_physical := P; sd_flight := q; sd_front := F |}
      {| sd_spine := set_logical s L'; sd_hist := h; sd_upper := up; sd_logical := L'; sd_physical := P; sd_flight := q; sd_front := F |}
| se_physical : forall s h up L P q F P' s', (forall t, beyond P' t -> beyond P t) -> allowed handle L P' -> set_physical ops s P' = Some s' ->
    side_env handle {| sd_spine := s; sd_hist := h; sd_upper := up; sd_logical := L; sd_physical := P; sd_flight := q; sd_front := F |}
      {| sd_spine := s'; sd_hist := h; sd_upper := up; sd_logical := L; sd_physical := P'; sd_flight := q; sd_front := F |}.

(** Delivery of messages and of a new frontier. *)
Definition delivers (sd : side) (msgs : list (T * list B)) (F' : list T) (sd' : side) : Prop :=
  exists q', sd_flight sd = flat_map snd msgs ++ q' /\
    sd' = {| sd_spine := sd_spine sd; sd_hist := sd_hist sd; sd_upper := sd_upper sd; sd_logical := sd_logical sd;
             sd_physical := sd_physical sd; sd_flight := q'; sd_front := F' |} /\
    Forall (fun m => beyond (sd_front sd) (fst m) /\ Forall (fun b => Forall (fun u => tle (fst m) (snd (fst u)) = true) (contents b)) (snd m)) msgs /\
    (forall t, beyond F' t -> beyond (sd_front sd) t) /\ Forall (times_beyond F') q'.

(** A trace with a past, and the batches still on the stream from before: none of them reaches beyond what
    has been inserted. *)
Definition begins (e : nat) (sd : side) : Prop :=
  exists l, s_history ops contents laws l (sd_hist sd) (sd_upper sd) (sd_logical sd) (sd_physical sd) /\
    s_run ops (with_effort e) l = Some (sd_spine sd) /\
    Forall (fun b => forall t, beyond (sd_upper sd) t -> beyond (upper_of ops b) t) (sd_flight sd) /\
    Forall (times_beyond (sd_front sd)) (sd_flight sd).
End Stream.
Arguments side : clear implicits.
