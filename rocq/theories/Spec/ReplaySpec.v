(** What replaying a history means: the updates are taken in time order, one at a time, into a buffer;
    the buffer's times may be advanced by times the caller names. *)
From Verif Require Export Spec.Collection.

Section ReplaySpec.
Context {V T R : Type} {TT : Time T}.
Local Notation update := (V * T * R)%type.

Inductive replay_op := Step | StepWhileTimeIs (t : T) | StepThrough (t : T) | AdvanceBuffer (m : T).

(** the leading updates whose time satisfies [p], and the others *)
Fixpoint split_while (p : T -> bool) (rest : list update) : list update * list update :=
  match rest with
  | u :: rest' => if p (snd (fst u)) then let (a, b) := split_while p rest' in (u :: a, b) else ([], rest)
  | [] => ([], [])
  end.
Definition advance_to (m : T) (u : update) : update := (fst (fst u), join (snd (fst u)) m, snd u).

(** The updates still to replay and the buffer; no [Step] when there is nothing left. *)
Fixpoint replay (rest buffer : list update) (ops : list replay_op) : option (list update * list update) :=
  match ops with
  | [] => Some (rest, buffer)
  | Step :: ops => match rest with u :: rest => replay rest (buffer ++ [u]) ops | [] => None end
  | StepWhileTimeIs t :: ops => let (now, rest) := split_while (fun t' => eqb t' t) rest in replay rest (buffer ++ now) ops
  | StepThrough t :: ops => let (now, rest) := split_while (fun t' => leb t' t) rest in replay rest (buffer ++ now) ops
  | AdvanceBuffer m :: ops => replay rest (map (advance_to m) buffer) ops
  end.

(** the times the caller advanced the buffer by *)
Definition advances (ops : list replay_op) : list T := flat_map (fun o => match o with AdvanceBuffer m => [m] | _ => [] end) ops.
End ReplaySpec.
Arguments replay_op : clear implicits.
