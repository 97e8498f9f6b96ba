(** Models of the consolidating container builder (differential-dataflow/src/consolidation.rs:146-232)
    and of the arrangement chunker (differential-dataflow/src/trace/implementations/chunker.rs).

    Updates [(data, time, diff)] are pairs of an item [A := D * T] and a difference. *)
From Verif Require Export Model.ConsolidationM.

Section Builders.
Context {A R : Type} {OA : Ord A} {DR : Diff R}.
Local Notation U := (A * R)%type.

(** ** ConsolidatingContainerBuilder *)

(* consolidation.rs:149-153; [ccb_cap] is the capacity of the [current] vector *)
Record ccb := { ccb_current : list U; ccb_cap : nat; ccb_empty : list (list U); ccb_outbound : list (list U) }.
Definition ccb_default : ccb := {| ccb_current := []; ccb_cap := 0; ccb_empty := []; ccb_outbound := [] |}.

(* consolidation.rs:168-173, the [while drain.peek().is_some()] loop: each round takes a container from
   the stash (or a new one), clears it, and extends it with up to [preferred] drained updates.
   [fuel] bounds the rounds; running out ([None]) is the non-terminating loop of [preferred = 0]. *)
Fixpoint ccb_drain (fuel preferred : nat) (drain : list U) (empty outbound : list (list U))
  : option (list (list U) * list (list U)) :=
  match drain, fuel with
  | [], _ => Some (empty, outbound)
  | _ :: _, 0 => None
  | _ :: _, S fuel =>
      let container := last empty [] in          (* self.empty.pop().unwrap_or_else(..) *)
      let empty := removelast empty in
      let container := firstn 0 container in     (* container.clear() *)
      let container := container ++ firstn preferred drain in
      ccb_drain fuel preferred (skipn preferred drain) empty (outbound ++ [container])
  end.

(* consolidation.rs:164-174 consolidate_and_flush_through *)
Definition ccb_flush_through (preferred multiple : nat) (b : ccb) : option ccb :=
  let current := consolidate (ccb_current b) in
  let k := (length current / multiple) * multiple in
  ' (empty, outbound) <- ccb_drain (length current) preferred (firstn k current) (ccb_empty b) (ccb_outbound b);
  Some {| ccb_current := skipn k current; ccb_cap := ccb_cap b; ccb_empty := empty; ccb_outbound := outbound |}.

(* consolidation.rs:188-198 push_into.  [alloc n] is the capacity the allocator gives when at least
   [n] elements are asked for; it is unspecified by Rust and arbitrary here. *)
Definition ccb_push (preferred : nat) (alloc : nat -> nat) (item : U) (b : ccb) : option ccb :=
  let cap := if ccb_cap b <? preferred * 2
             then alloc (length (ccb_current b) + (preferred * 2 - ccb_cap b)) else ccb_cap b in
  let b := {| ccb_current := ccb_current b ++ [item]; ccb_cap := cap;
              ccb_empty := ccb_empty b; ccb_outbound := ccb_outbound b |} in
  if length (ccb_current b) =? ccb_cap b then ccb_flush_through preferred preferred b else Some b.

(* consolidation.rs:210-217 extract: the container is lent to the caller and stays last in [empty] *)
Definition ccb_extract (b : ccb) : ccb * option (list U) :=
  match ccb_outbound b with
  | c :: outbound =>
      ({| ccb_current := ccb_current b; ccb_cap := ccb_cap b; ccb_empty := ccb_empty b ++ [c];
          ccb_outbound := outbound |}, Some c)
  | [] => (b, None)
  end.

(* consolidation.rs:220-229 finish *)
Definition ccb_finish (preferred : nat) (b : ccb) : option (ccb * option (list U)) :=
  match ccb_current b with
  | _ :: _ =>
      b <- ccb_flush_through preferred 1 b;
      Some (ccb_extract {| ccb_current := ccb_current b; ccb_cap := ccb_cap b;
                           ccb_empty := firstn 2 (ccb_empty b); ccb_outbound := ccb_outbound b |})
  | [] => Some (ccb_extract b)
  end.

(** A client of a builder: pushes, extracts and finishes, in any order.  A container lent by
    [extract]/[finish] may be overwritten by the client ([BScribble]) before the next call. *)
Inductive builder_op := BPush (item : U) | BExtract | BFinish | BScribble (c : list U).

Definition ccb_step (preferred : nat) (alloc : nat -> nat) (b : ccb) (o : builder_op)
  : option (ccb * option (list U)) :=
  match o with
  | BPush item => b <- ccb_push preferred alloc item b; Some (b, None)
  | BExtract => Some (ccb_extract b)
  | BFinish => ccb_finish preferred b
  | BScribble c =>
      Some ({| ccb_current := ccb_current b; ccb_cap := ccb_cap b;
               ccb_empty := match ccb_empty b with [] => [] | _ => removelast (ccb_empty b) ++ [c] end;
               ccb_outbound := ccb_outbound b |}, None)
  end.

(** ** ContainerChunker *)

(* chunker.rs:11-15 *)
Record chunker := { ck_pending : list U; ck_ready : list (list U); ck_empty : list U }.
Definition chunker_default : chunker := {| ck_pending := []; ck_ready := []; ck_empty := [] |}.

(* consolidation.rs:256-259 Consolidate::consolidate_into followed by the swap of chunker.rs:45, 75 and
   the clear of 46, 76 *)
Definition ck_consolidate (k : chunker) : chunker :=
  let pending := consolidate (ck_pending k) in                (* consolidate_updates(self) *)
  let '(pending, empty) := (ck_empty k, pending) in           (* swap(self, target) *)
  let '(pending, empty) := (empty, pending) in                (* swap(&mut pending, &mut empty) *)
  {| ck_pending := pending; ck_ready := ck_ready k; ck_empty := firstn 0 empty |}.

(* chunker.rs:40-53, the loop body of push_into.  [full] is SizableContainer::at_capacity (timely crate,
   not in /repo), an arbitrary predicate here. *)
Definition ck_push_item (full : list U -> bool) (k : chunker) (item : U) : chunker :=
  let k := {| ck_pending := ck_pending k ++ [item]; ck_ready := ck_ready k; ck_empty := ck_empty k |} in
  if full (ck_pending k) then
    let starting_len := length (ck_pending k) in
    let k := ck_consolidate k in
    if starting_len / 2 <? length (ck_pending k) then
      {| ck_pending := []; ck_ready := ck_ready k ++ [ck_pending k]; ck_empty := ck_empty k |}
    else k
  else k.

(* chunker.rs:37-54 push_into *)
Definition ck_push (full : list U -> bool) (container : list U) (k : chunker) : chunker :=
  fold_left (ck_push_item full) container k.

(* chunker.rs:62-69 extract *)
Definition ck_extract (k : chunker) : chunker * option (list U) :=
  match ck_ready k with
  | c :: ready => ({| ck_pending := ck_pending k; ck_ready := ready; ck_empty := c |}, Some c)
  | [] => (k, None)
  end.

(* chunker.rs:71-86 finish *)
Definition ck_finish (k : chunker) : chunker * option (list U) :=
  let k := match ck_pending k with
           | [] => k
           | _ => let k := ck_consolidate k in
                  match ck_pending k with
                  | [] => k
                  | c => {| ck_pending := []; ck_ready := ck_ready k ++ [c]; ck_empty := ck_empty k |}
                  end
           end in
  ck_extract k.

(** A client of the chunker; each push may see a different capacity test. *)
Inductive chunker_op := KPush (full : list U -> bool) (c : list U) | KExtract | KFinish | KScribble (c : list U).

Definition chunker_step (k : chunker) (o : chunker_op) : chunker * option (list U) :=
  match o with
  | KPush full c => (ck_push full c k, None)
  | KExtract => ck_extract k
  | KFinish => ck_finish k
  | KScribble c => ({| ck_pending := ck_pending k; ck_ready := ck_ready k; ck_empty := c |}, None)
  end.

Definition out_list {X} (o : option X) : list X := match o with Some x => [x] | None => [] end.

(** Running a client, collecting the containers handed out. *)
Fixpoint ccb_run (preferred : nat) (alloc : nat -> nat) (b : ccb) (ops : list builder_op)
  : option (ccb * list (list U)) :=
  match ops with
  | [] => Some (b, [])
  | o :: ops =>
      ' (b, out) <- ccb_step preferred alloc b o;
      ' (b, outs) <- ccb_run preferred alloc b ops;
      Some (b, out_list out ++ outs)
  end.

Fixpoint chunker_run (k : chunker) (ops : list chunker_op) : chunker * list (list U) :=
  match ops with
  | [] => (k, [])
  | o :: ops =>
      let '(k, out) := chunker_step k o in
      let '(k, outs) := chunker_run k ops in
      (k, out_list out ++ outs)
  end.
End Builders.
