(** What a chunk that can be read through a cursor offers (trait [NavigableChunk], trace/chunk/mod.rs:150-168),
    and how the navigation of a whole batch is to be understood. *)
From Verif Require Export Spec.Presents Spec.ChunkSpec Model.ChunkCursorM.

Section Laws.
Context {C I K V T R : Type} {OK : Ord K} {OV : Ord V} {TT : Time T} {DR : Diff R}.
Variable ok : C -> Prop.
Variable rows : C -> list (K * V * T * R).
Variable inner : CursorOps C I K V T R.
Variable fresh : C -> I.
Variable bounds : C -> option ((K * V) * (K * V)).
Record NavigableLaws := {
  (** the chunk's own cursor presents the chunk *)
  nv_cursor : forall c, ok c -> rows c <> [] -> consolidated (A:=K*V*T) (rows c) -> presents inner c (fresh c) (trie_of (rows c));
  (** the bounds are the key and value of the first and of the last update *)
  nv_bounds : forall c f l, ok c -> nth_error (rows c) 0 = Some f -> nth_error (rows c) (length (rows c) - 1) = Some l -> bounds c = Some (fst (fst f), fst (fst l))
}.
End Laws.

(** Seeking a key from the start, wherever the cursor is. *)
Definition from_start {K V} (op : nav K V) : list (nav K V) :=
  match op with SeekKey k => [RewindKeys; SeekKey k] | _ => [op] end.
(** Keys are only sought forward: all keys before the cursor are smaller. *)
Definition forward {K V T R} {OK : Ord K} {OV : Ord V} (tr : trie K V T R) (p : pos) (op : nav K V) : Prop :=
  match op with SeekKey k => forall e, In e (firstn (kp p) tr) -> lt (fst e) k | _ => True end.
