(** Going through the nodes of a graph one after another. *)
From Verif Require Export Spec.GraphSpec Model.ConsolidationM.

Section Sequence.
Context {N V : Type} {ON : Ord N} {OV : Ord V}.
Variables (logic : N -> list (V * Z) -> V) (edges : list (N * N * Z)) (state : list (N * V * Z)).
(** The values that edges bring to node [n]: from smaller nodes, the new values there are; from larger nodes, the old.
    Equal values are added up, and they are in order. *)
Definition new_value (new : list (N * V)) (m : N) : list V := map snd (filter (fun x => eqb (fst x) m) new).
Definition values_into (new : list (N * V)) (n : N) : list (V * Z) :=
  consolidate (flat_map (fun e => let '((m, n'), w) := e in
    if eqb n' n then
      if ltb m n then map (fun v => (v, w)) (new_value new m)
      else if ltb n m then map (fun s => (snd (fst s), (snd s * w)%Z)) (filter (fun s => eqb (fst (fst s)) m) state)
      else []
    else []) edges).
(** One node after another: a node with any values gets what [logic] says of them. *)
Fixpoint in_order (nodes : list N) (new : list (N * V)) : list (N * V) :=
  match nodes with
  | [] => new
  | n :: nodes => in_order nodes (match values_into new n with [] => new | vs => (n, logic n vs) :: new end)
  end.
End Sequence.
