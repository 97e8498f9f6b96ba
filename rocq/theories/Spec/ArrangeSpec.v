(** The runs of arrange_core: updates are sent to it in messages, the input frontier advances, and readers
    of the trace do as they please.

    Timely's part: a message is at a time at or beyond the frontier last reported, its updates are at or
    beyond the message's time, and the frontier reported with a delivery is one that all messages still to
    come are beyond.  Messages need not arrive in the order they were sent. *)
From Verif Require Export Spec.AgentSpec Spec.BatcherSpec Model.ArrangeM.

Section ArrangeSpec.
Context {B M D T R : Type} {OD : Ord D} {TT : Time T} {DR : Diff R}.
Local Notation U := (D * T * R)%type.
Variable ops : BatchOps B M T.
Variable contents : B -> list U.
Variable laws : BatchLaws ops contents.

(** What is asked of a merger of chains of chunks: it works on the chains [good] it makes itself and on
    single, consolidated, non-empty chunks. *)
Record MergerLaws (m_merge : list (list U) -> list (list U) -> option (list (list U)))
    (m_extract : list (list U) -> list T -> option (list T * list (list U) * list (list U))) := {
  ml_good : list (list U) -> Prop;
  ml_nil : ml_good [];
  ml_chunk : forall c, consolidated (A:=D*T) c -> c <> [] -> ml_good [c];
  ml_consolidated : forall c, ml_good c -> consolidated (A:=D*T) (concat c);
  ml_merge : forall a b, ml_good a -> ml_good b ->
    exists o, m_merge a b = Some o /\ ml_good o /\ same_weights (A:=D*T) (concat o) (concat a ++ concat b);
  ml_extract : forall m upper, ml_good m ->
    exists f r k, m_extract m upper = Some (f, r, k) /\ ml_good r /\ ml_good k /\
      antichain f /\ (forall t, beyond f t <-> beyond (map time_of (concat k)) t) /\
      same_weights (A:=D*T) (concat r) (filter (fun u => negb (beyondb upper (time_of u))) (concat m)) /\
      same_weights (A:=D*T) (concat k) (filter (fun u => beyondb upper (time_of u)) (concat m))
}.
(** What is asked of the builder: a batch with the updates of the chain and the given description. *)
Definition builds (good : list (list U) -> Prop) (build : list (list U) -> Description T -> B) : Prop :=
  forall chain d, good chain -> bl_ok _ _ laws (build chain d) /\ contents (build chain d) = concat chain /\ b_desc ops (build chain d) = d.

Variable full : list U -> bool.
Variable m_merge : list (list U) -> list (list U) -> option (list (list U)).
Variable m_extract : list (list U) -> list T -> option (list T * list (list U) * list (list U)).
Variable m_len : list U -> nat.
Variable build : list (list U) -> Description T -> B.

Record aworld := {
  aw_trace : World B M T;
  aw_op : astate D T R;
  aw_flight : list (T * list U);     (** messages sent, not delivered yet *)
  aw_front : list T;                 (** the frontier last reported to the operator *)
  aw_received : list U;              (** all updates delivered *)
  aw_log : list (B * option T);      (** all batches inserted in the trace, with their hints *)
  aw_out : list (T * B)              (** all messages sent *)
}.

(** Commands of those who hold the trace, and its queues. *)
Definition reader_command (c : command B T) : Prop :=
  match c with CInsert _ _ | CSeal _ | CDropWriter => False | _ => True end.

(** Messages and a frontier that may be delivered. *)
Definition may_deliver (flight : list (T * list U)) (F : list T) (msgs rest : list (T * list U)) (F' : list T) : Prop :=
  Permutation flight (msgs ++ rest) /\ antichain F' /\ (forall t, beyond F' t -> beyond F t) /\
  Forall (fun m => beyond F' (fst m)) rest.

Inductive astep : aworld -> aworld -> Prop :=
| aw_send : forall w st q F r l o c us, beyond F c -> Forall (fun u => tle c (time_of u) = true) us ->
    astep {| aw_trace := w; aw_op := st; aw_flight := q; aw_front := F; aw_received := r; aw_log := l; aw_out := o |}
          {| aw_trace := w; aw_op := st; aw_flight := q ++ [(c, us)]; aw_front := F; aw_received := r; aw_log := l; aw_out := o |}
| aw_read : forall w st q F r l o c w' bs, reader_command c -> w_step ops w c = Some (w', bs) ->
    astep {| aw_trace := w; aw_op := st; aw_flight := q; aw_front := F; aw_received := r; aw_log := l; aw_out := o |}
          {| aw_trace := w'; aw_op := st; aw_flight := q; aw_front := F; aw_received := r; aw_log := l; aw_out := o |}
| aw_activate : forall w st q F r l o msgs q' F' answer st' w' outs bs,
    may_deliver q F msgs q' F' ->
    a_activate ops full m_merge m_extract m_len build msgs F' answer st w = Some (st', w', outs, bs) ->
    astep {| aw_trace := w; aw_op := st; aw_flight := q; aw_front := F; aw_received := r; aw_log := l; aw_out := o |}
          {| aw_trace := w'; aw_op := st'; aw_flight := q'; aw_front := F'; aw_received := r ++ flat_map snd msgs;
             aw_log := l ++ bs; aw_out := o ++ outs |}.
Inductive areaches (e : nat) : aworld -> Prop :=
| ar_start : areaches e {| aw_trace := world_new (with_effort e); aw_op := a_start; aw_flight := []; aw_front := [tmin];
                           aw_received := []; aw_log := []; aw_out := [] |}
| ar_step : forall w w', areaches e w -> astep w w' -> areaches e w'.
End ArrangeSpec.
Arguments aworld : clear implicits.
