(** When a columnar chunk is well made, and what it holds. *)
From Verif Require Export Spec.ChunkSpec Spec.ChunkCursorSpec Model.ColumnarM.

Section Columnar.
Context {K V T R : Type} {OK : Ord K} {OV : Ord V} {TT : Time T} {DR : Diff R}.
Local Notation U := (K * V * T * R)%type.
(** What iterating over the chunk gives. *)
Definition col_rows (c : ColChunk K V T R) : list U := match updates_iter (into_trie c) with Some l => l | None => [] end.
(** The chunk is the one formed from some consolidated list of updates; if it is paged out, what is kept of it
    in memory is its length, and its first and last updates. *)
Definition col_made (c : ColChunk K V T R) : Prop :=
  (exists l, consolidated (A:=K*V*T) l /\ form l = Some (into_trie c)) /\
  match c with
  | Resident _ => True
  | Paged m _ => m_len m = length (col_rows c) /\ nth_error (map fst (col_rows c)) 0 = Some (m_first m) /\
                 nth_error (map fst (col_rows c)) (length (col_rows c) - 1) = Some (m_last m)
  end.
End Columnar.
