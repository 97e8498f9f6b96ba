(** When a columnar container is well made, and what it holds. *)
From Verif Require Export Spec.ColumnarSpec Model.ColCollM.

Section ColColl.
Context {K V T R : Type} {OK : Ord K} {OV : Ord V} {TT : Time T} {DR : Diff R}.
Local Notation U := (K * V * T * R)%type.
Local Notation Rec := (RecordedUpdates K V T R).
(** What iterating over the container gives. *)
Definition rec_rows (c : Rec) : list U := match updates_iter (ru_updates c) with Some l => l | None => [] end.
(** The container's trie was formed from some consolidated list of updates, or, if the container does not claim
    to be consolidated, its updates were pushed one by one. *)
Definition rec_made (c : Rec) : Prop :=
  (exists l, consolidated (A:=K*V*T) l /\ form l = Some (ru_updates c)) \/
  (ru_consolidated c = false /\ exists l, ru_updates c = fold_left updates_push l updates_new).
(** The number of records claimed is at least the number of updates left after consolidation. *)
Definition counted (c : Rec) : Prop := length (rec_rows c) <= ru_records c.
(** What was pushed to a builder. *)
Definition vb_pushed (ops : list vb_op) : list U := flat_map (fun o => match o with VPush x => [x] | _ => [] end) ops.
Definition tc_pushed (ops : list tc_op) : list Rec := flat_map (fun o => match o with TPush c => [c] | _ => [] end) ops.
(** The records that a list of messages claims. *)
Definition records_of (l : list (option Rec)) : nat := list_sum (map (fun m => match m with Some c => ru_records c | None => 0 end) l).
End ColColl.
