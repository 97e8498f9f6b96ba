(** What runs of the captured source are considered, and what is asked of them. *)
From Verif Require Export Spec.CaptureSpec Model.CaptureSourceM.

Section SourceSpec.
Context {D T R : Type} {OD : Ord D} {TT : Time T} {OR : Ord R}.
Notation update := (D * T * R)%type.
Variables (W : nat) (hash_update : update -> nat) (hash_time : T -> nat).

(** A message about [all]: some of the updates, possibly repeated, or a truthful statement. *)
Definition tells_about (all : list update) (m : message D T R) : Prop :=
  match m with Updates us => incl us all | Statement p => truthful all p end.
(** The frontiers timely shows to UPDATES only advance, and do not pass a capability of a MESSAGES operator. *)
Definition may_act (s : state D T R) (a : action T) : Prop :=
  match a with
  | AMessages w _ => w < W
  | AUpdates w F _ => w < W /\ (forall t, beyond F t -> beyond (st_shown s w) t) /\ (forall v c, v < W -> In c (st_caps s v) -> beyond F c)
  | AProgress p _ _ => p < W
  | AFeedback q ps => q < W /\ Forall (fun p => p < W) ps
  end.
Fixpoint may_run (s : state D T R) (acts : list (action T)) : Prop :=
  match acts with
  | [] => True
  | a :: acts => may_act s a /\ match step W hash_update hash_time s a with Some s' => may_run s' acts | None => True end
  end.
(** Nothing is left to do: sources have been read, unless the worker stopped as it holds no capability, and no message is in flight. *)
Definition at_rest (s : state D T R) : Prop :=
  forall w, w < W -> (st_source s w = [] \/ st_caps s w = []) /\ st_updates s w = [] /\ st_counts s w = [] /\ st_progress s w = [] /\
    forall p, p < W -> st_feedback s p w = [].
(** The updates emitted. *)
Definition emitted (s : state D T R) : list update := map snd (st_out s).
(** The frontier a worker has learned. *)
Definition learned (s : state D T R) (w : nat) : list T := ma_frontier (st_shared s w).
End SourceSpec.
