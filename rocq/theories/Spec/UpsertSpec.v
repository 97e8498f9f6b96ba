(** The runs of arrange_from_upsert, and what the arrangement should hold.

    As for arrange: messages are at times at or beyond the frontier last reported, their upserts at or
    beyond the message's time, and a frontier reported with a delivery is one that all messages still to
    come are beyond.  Readers of the trace do as they please, with handles other than the operator's own. *)
From Verif Require Export Spec.AgentSpec Spec.ReadableSpec Spec.ArrangeSpec Model.UpsertM.

(** The value of a key as of a time: that of the latest upsert of the key at or before it, the greatest
    value among those of the same time ([None] being the least); nothing if there is no such upsert. *)
Definition value_as_of {K V T} {OV : Ord V} {TT : Time T} (us : list (K * option V * T)) (k : K) (t : T) (o : option V) : Prop :=
  (exists s, In (k, o, s) us /\ tle s t = true /\
     forall o' s', In (k, o', s') us -> tle s' t = true -> lt s' s \/ (s' = s /\ le o' o)) \/
  (o = None /\ forall o' s', In (k, o', s') us -> tle s' t = false).

Section UpsertSpec.
Context {B M C K V T : Type} {OK : Ord K} {OV : Ord V} {TT : Time T}.
Local Notation U := (K * V * T * Z)%type.
Local Notation message := (T * list (K * option V * T))%type.
Variable ops : BatchOps B M T.
Variable contents : B -> list U.
Variable laws : BatchLaws (D:=K*V) ops contents.
Variable cops : CursorOps B C K V T Z. Variable new : C.
Variable build : list (list U) -> Description T -> B.

(** what is asked of the builder: given consolidated updates, in pieces, a batch of them *)
Definition builds_consolidated : Prop := builds (D:=K*V) ops contents laws (fun chain => consolidated (A:=K*V*T) (concat chain)) build.

Record uworld := {
  uw_trace : World B M T;
  uw_op : ustate K V T;
  uw_flight : list message;          (** messages sent, not delivered yet *)
  uw_front : list T;                 (** the frontier last reported to the operator *)
  uw_received : list (K * option V * T);   (** all upserts delivered *)
  uw_log : list (B * option T);      (** all batches inserted in the trace, with their hints *)
  uw_out : list (T * B)              (** all messages sent *)
}.
(** Commands of those who hold the trace, sparing the operator's handle. *)
Definition others_command (c : command B T) : Prop :=
  reader_command c /\ match c with CDrop i | CSetLogical i _ | CSetPhysical i _ => i <> 0 | _ => True end.
Definition u_may_deliver (flight : list message) (F : list T) (msgs rest : list message) (F' : list T) : Prop :=
  Permutation flight (msgs ++ rest) /\ antichain F' /\ (forall t, beyond F' t -> beyond F t) /\
  Forall (fun m => beyond F' (fst m)) rest.

Inductive ustep : uworld -> uworld -> Prop :=
| uw_send : forall w st q F r l o c us, beyond F c -> Forall (fun u => tle c (snd u) = true) us ->
    ustep {| uw_trace := w; uw_op := st; uw_flight := q; uw_front := F; uw_received := r; uw_log := l; uw_out := o |}
          {| uw_trace := w; uw_op := st; uw_flight := q ++ [(c, us)]; uw_front := F; uw_received := r; uw_log := l; uw_out := o |}
| uw_read : forall w st q F r l o c w' bs, others_command c -> w_step ops w c = Some (w', bs) ->
    ustep {| uw_trace := w; uw_op := st; uw_flight := q; uw_front := F; uw_received := r; uw_log := l; uw_out := o |}
          {| uw_trace := w'; uw_op := st; uw_flight := q; uw_front := F; uw_received := r; uw_log := l; uw_out := o |}
| uw_activate : forall w st q F r l o msgs q' F' answer st' w' outs bs,
    u_may_deliver q F msgs q' F' ->
    u_activate ops cops new build msgs F' answer st w = Some (st', w', outs, bs) ->
    ustep {| uw_trace := w; uw_op := st; uw_flight := q; uw_front := F; uw_received := r; uw_log := l; uw_out := o |}
          {| uw_trace := w'; uw_op := st'; uw_flight := q'; uw_front := F'; uw_received := r ++ flat_map snd msgs;
             uw_log := l ++ bs; uw_out := o ++ outs |}.
Inductive ureaches (e : nat) : uworld -> Prop :=
| ur_start : forall w, u_trace ops e = Some w ->
    ureaches e {| uw_trace := w; uw_op := u_start; uw_flight := []; uw_front := [tmin]; uw_received := []; uw_log := []; uw_out := [] |}
| ur_step : forall w w', ureaches e w -> ustep w w' -> ureaches e w'.
End UpsertSpec.
Arguments uworld : clear implicits.
