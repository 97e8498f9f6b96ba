(** What chunks should be, and do. *)
From Verif Require Export Spec.BatcherSpec Model.ChunkM.

(** Sizes of chunks, packed as much as possible: none is over the target, and any two adjacent ones
    together are. *)
Definition graded (target : nat) (sizes : list nat) : Prop :=
  Forall (fun n => n <= target) sizes /\
  forall i a b, nth_error sizes i = Some a -> nth_error sizes (S i) = Some b -> target < a + b.

(** Calls of [settle], or [advance], on one queue: before each call, but the last, chunks are pushed to it;
    the last call is the one with [done] set.  The result is all that is pushed to the output. *)
Fixpoint in_calls {C} (call : list C -> bool -> option (list C * list C)) (queue : list C) (pushes : list (list C)) : option (list C) :=
  match pushes with
  | [] => ' (_, out) <- call queue true; Some out
  | new :: pushes =>
      ' (queue, out) <- call (queue ++ new) false;
      out' <- in_calls call queue pushes;
      Some (out ++ out')
  end.
(** Calls of a batch merger's [work], with the fuel each is given. *)
Fixpoint work_calls {C T} {TT : Time T} (ops : ChunkOps C T) (m : ChunkBatchMerger C T) (b1 b2 : ChunkBatch C T) (fuels : list Z) : option (ChunkBatchMerger C T) :=
  match fuels with
  | [] => Some m
  | fuel :: fuels => ' (m, _) <- cbm_work ops m b1 b2 fuel; work_calls ops m b1 b2 fuels
  end.

(** Chunks of type [C], each holding updates to data of type [D]. *)
Section Laws.
Context {C D T R : Type} {OD : Ord D} {TT : Time T} {DR : Diff R}.
Local Notation U := (D * T * R)%type.
Variable ops : ChunkOps C T.
Variable ok : C -> Prop.                                    (** the chunks that are well made *)
Variable rows : C -> list U.                                (** and what they hold *)

Definition updates_of (l : list C) : list U := flat_map rows l.
Definition all_nonempty (l : list C) : Prop := Forall (fun c => ok c /\ rows c <> []) l.
(** A chain: chunks that are well made and not empty, and together are sorted and consolidated. *)
Definition chain (l : list C) : Prop := all_nonempty l /\ consolidated (A:=D*T) (updates_of l).
Definition all_before (a b : list U) : Prop := forall x y, In x a -> In y b -> lt (A:=D*T) (fst x) (fst y).
Definition data_before (a b : list U) : Prop := forall x y, In x a -> In y b -> lt (fst (fst x)) (fst (fst y)).

(** What the trait [Chunk] asks of its methods (trace/chunk/mod.rs:60-146). *)
Record ChunkLaws := {
  cl_target : 0 < ch_target ops;
  cl_len : forall c, ok c -> ch_len ops c = length (rows c);
  (** Merging consumes some of the updates of each input, and gives their consolidation.  It goes no
      further than the last update of either input, and consumes at least one chunk. *)
  cl_merge : forall in1 in2, chain in1 -> chain in2 -> in1 <> [] -> in2 <> [] ->
    exists in1' in2' out front1 front2, ch_merge ops in1 in2 = Some (in1', in2', out) /\
      updates_of in1 = front1 ++ updates_of in1' /\ updates_of in2 = front2 ++ updates_of in2' /\
      consolidated (A:=D*T) (updates_of out) /\ same_weights (A:=D*T) (updates_of out) (front1 ++ front2) /\
      length (updates_of out) <= length front1 + length front2 /\
      all_before front1 (updates_of in2') /\ all_before front2 (updates_of in1') /\
      (forall x, In x front1 -> exists y, In y (updates_of in2) /\ le (A:=D*T) (fst x) (fst y)) /\
      (forall x, In x front2 -> exists y, In y (updates_of in1) /\ le (A:=D*T) (fst x) (fst y)) /\
      all_nonempty in1' /\ all_nonempty in2' /\ all_nonempty out /\
      length in1' <= length in1 /\ length in2' <= length in2 /\ length in1' + length in2' < length in1 + length in2;
  (** Extracting consumes at least one chunk, and parts its updates by the frontier. *)
  cl_extract : forall input frontier residual, chain input -> input <> [] -> antichain residual ->
    exists input' residual' keep ship front, ch_extract ops input frontier residual = Some (input', residual', keep, ship) /\
      updates_of input = front ++ updates_of input' /\
      updates_of keep = filter (fun u => beyondb frontier (time_of u)) front /\
      updates_of ship = filter (fun u => negb (beyondb frontier (time_of u))) front /\
      antichain residual' /\ (forall t, beyond residual' t <-> beyond residual t \/ beyond (map time_of (updates_of keep)) t) /\
      all_nonempty input' /\ all_nonempty keep /\ all_nonempty ship /\ length input' < length input;
  (** Advancing consumes all updates of some of the data, and gives the consolidation of them at the
      advanced times; with [done] set it consumes all, and otherwise leaves something to put more after. *)
  cl_advance : forall input frontier done, chain input ->
    exists input' out front, ch_advance ops input frontier done = Some (input', out) /\
      updates_of input = front ++ updates_of input' /\ data_before front (updates_of input') /\
      consolidated (A:=D*T) (updates_of out) /\
      same_weights (A:=D*T) (updates_of out) (map (fun u => (fst (fst u), advance_by (time_of u) frontier, snd u)) front) /\
      length (updates_of out) <= length front /\
      all_nonempty input' /\ all_nonempty out /\ (done = true -> input' = []) /\ (done = false -> input <> [] -> input' <> []);
  (** Settling moves updates along in their order, and its output so far can be extended to a graded one.
      [cl_settling out queue]: [queue] is what calls that have pushed [out] left of their input. *)
  cl_settling : list C -> list C -> Prop;
  cl_settling_nil : cl_settling [] [];
  cl_settle_more : forall out queue new, cl_settling out queue -> all_nonempty new -> consolidated (A:=D*T) (updates_of queue ++ updates_of new) ->
    exists queue' o, ch_settle ops (queue ++ new) false = Some (queue', o) /\ cl_settling (out ++ o) queue' /\
      updates_of queue ++ updates_of new = updates_of o ++ updates_of queue';
  cl_settle_done : forall out queue new, cl_settling out queue -> all_nonempty new -> consolidated (A:=D*T) (updates_of queue ++ updates_of new) ->
    exists o, ch_settle ops (queue ++ new) true = Some ([], o) /\
      updates_of queue ++ updates_of new = updates_of o /\
      graded (ch_target ops) (map (ch_len ops) (out ++ o)) /\ all_nonempty (out ++ o)
}.
End Laws.
