(** The runs of reduce, and what its output should hold.

    The input is an arrangement made along with the operator, which changes around the operator as
    StreamSpec says.  The output trace is read by others as they please, with handles other than the
    operator's own. *)
From Verif Require Export Spec.StreamSpec Spec.ReadableSpec Spec.AgentSpec Spec.ArrangeSpec Spec.UpsertSpec Model.ReduceM.

(** All times at or before a time are comparable with each other. *)
Definition linear_past {T} {TT : Time T} (t : T) : Prop :=
  forall x y, tle x t = true -> tle y t = true -> tle x y = true \/ tle y x = true.

(** the updates of a batch are in its interval *)
Definition within {B M D T R} {TT : Time T} (ops : BatchOps B M T) (contents : B -> list (D * T * R)) (b : B) : Prop :=
  Forall (fun u => beyond (lower_of ops b) (snd (fst u)) /\ ~ beyond (upper_of ops b) (snd (fst u))) (contents b).

(** What is asked of the logic: presented with the input of a key and with the output so far, it gives
    the changes that turn the latter into [F] of the former.  It need not do anything when both are empty. *)
Definition reduces {K V1 V2 R1 R2} {OV1 : Ord V1} {OV2 : Ord V2} {D1 : Diff R1} {D2 : Diff R2}
  (logic : K -> list (V1 * R1) -> list (V2 * R2) -> list (V2 * R2)) (F : K -> list (V1 * R1) -> V2 -> R2) : Prop :=
  (forall k v, F k [] v = dzero) /\
  forall k i o, consolidated i -> consolidated o -> i <> [] \/ o <> [] -> forall v, dplus (weight (logic k i o) v) (weight o v) = F k i v.

Section ReduceSpec.
Context {B1 M1 B2 M2 K V1 T R1 P : Type} {OK : Ord K} {OV1 : Ord V1} {TT : Time T} {D1 : Diff R1}.
Variable bops1 : BatchOps B1 M1 T. Variable contents1 : B1 -> list (K * V1 * T * R1). Variable laws1 : BatchLaws (D:=K*V1) bops1 contents1.
Variable bops2 : BatchOps B2 M2 T.
(** the tactic, and its state at first *)
Variable tactic : tactic_of B1 B2 P T. Variable p0 : P.

(** A message carries batches that start at or before its time.  When messages and a frontier are
    delivered, no empty batch is left behind on the stream, and the frontier is ahead neither of a batch
    on the stream nor of the end of the trace. *)
Definition timely (msgs : list (T * list B1)) (sd' : side B1 M1 T) : Prop :=
  Forall (fun m => snd m <> [] /\ Forall (fun b => beyond (lower_of bops1 b) (fst m)) (snd m)) msgs /\
  Forall (fun b => contents1 b <> [] /\ forall t, beyond (lower_of bops1 b) t -> beyond (sd_front sd') t) (sd_flight sd') /\
  (forall t, beyond (sd_upper sd') t -> beyond (sd_front sd') t).

(** A message is sent at a time that is not at or beyond the ends of all of its batches. *)
Definition prompt (msgs : list (T * list B1)) : Prop := Forall (fun m => Exists (fun b => ~ beyond (upper_of bops1 b) (fst m)) (snd m)) msgs.

Record rworld := {
  rw_in : side B1 M1 T;
  rw_trace : World B2 M2 T;
  rw_op : rstate P T;
  rw_log : list (B2 * option T);     (** all batches inserted in the output trace, with their hints *)
  rw_out : list (T * B2)             (** all messages sent *)
}.
Inductive rstep : rworld -> rworld -> Prop :=
| rw_env : forall s s' w st l o, side_env bops1 contents1 laws1 (Some (rs_handle st)) s s' -> Forall (within bops1 contents1) (sd_hist s') ->
    rstep {| rw_in := s; rw_trace := w; rw_op := st; rw_log := l; rw_out := o |} {| rw_in := s'; rw_trace := w; rw_op := st; rw_log := l; rw_out := o |}
| rw_read : forall s w st l o c w' bs, others_command c -> w_step bops2 w c = Some (w', bs) ->
    rstep {| rw_in := s; rw_trace := w; rw_op := st; rw_log := l; rw_out := o |} {| rw_in := s; rw_trace := w'; rw_op := st; rw_log := l; rw_out := o |}
| rw_activate : forall s s' w st l o msgs F answer st' w' outs bs,
    delivers contents1 s msgs F s' -> timely msgs s' ->
    r_activate bops1 bops2 tactic (sd_spine s) msgs F answer st w = Some (st', w', outs, bs) ->
    rstep {| rw_in := s; rw_trace := w; rw_op := st; rw_log := l; rw_out := o |} {| rw_in := s'; rw_trace := w'; rw_op := st'; rw_log := l ++ bs; rw_out := o ++ outs |}.

(** Nothing has been inserted yet, and the handle on the input has not allowed anything to be forgotten,
    nor any batches to be merged. *)
Definition rstarts (e : nat) (handle : list T * list T) (w : rworld) : Prop :=
  (exists e', begins bops1 contents1 laws1 e' (rw_in w)) /\ sd_hist (rw_in w) = [] /\ sd_flight (rw_in w) = [] /\ (forall t, beyond (sd_front (rw_in w)) t) /\
  allowed (Some handle) (sd_logical (rw_in w)) (sd_physical (rw_in w)) /\ (forall t, beyond (fst handle) t) /\ (forall t, beyond (snd handle) t) /\
  r_trace bops2 e = Some (rw_trace w) /\ rw_op w = r_start p0 handle /\ rw_log w = [] /\ rw_out w = [].
Inductive rreaches (e : nat) (handle : list T * list T) : rworld -> Prop :=
| rr_start : forall w, rstarts e handle w -> rreaches e handle w
| rr_step : forall w w', rreaches e handle w -> rstep w w' -> rreaches e handle w'.
(** The same, where also all messages delivered are sent promptly. *)
Inductive rprompt (e : nat) (handle : list T * list T) : rworld -> Prop :=
| rp_start : forall w, rstarts e handle w -> rprompt e handle w
| rp_other : forall w w', rprompt e handle w -> rstep w w' -> rw_op w' = rw_op w -> rprompt e handle w'
| rp_activate : forall w s' msgs F answer st' w' outs bs, rprompt e handle w ->
    delivers contents1 (rw_in w) msgs F s' -> timely msgs s' -> prompt msgs ->
    r_activate bops1 bops2 tactic (sd_spine (rw_in w)) msgs F answer (rw_op w) (rw_trace w) = Some (st', w', outs, bs) ->
    rprompt e handle {| rw_in := s'; rw_trace := w'; rw_op := st'; rw_log := rw_log w ++ bs; rw_out := rw_out w ++ outs |}.
End ReduceSpec.
Arguments rworld : clear implicits.
