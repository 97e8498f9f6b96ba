(** * Model of differential-dataflow/src/algorithms/graphs

    As in PrefixSumM, the algorithms are compositions of operators and a collection is what it is at one time of the
    enclosing scope.  A loop is run for a number of rounds, given as a parameter: the theorems say how many are enough, and
    that more change nothing.  Counts are integers. *)
From Verif Require Export Model.PrefixSumM.

Section Graph.
Context {N : Type} {ON : Ord N}.

(* [|_, s, t| t.push((s[0].0.clone(), 1))]: the least value that is present.  [s[0]] panics when there is none, but the input of reduce is not empty *)
Definition least_value {K V : Type} (_ : K) (s : list (V * Z)) : list (V * Z) := match s with [] => [] | x :: _ => [(fst x, 1%Z)] end.

(** bfs.rs *)
(* bfs.rs:40-42, the body of the loop.  Simplified: distances are natural numbers, not [u32] *)
Definition bfs_body (edges : coll (N * N)) (nodes inner : coll (N * nat)) : coll (N * nat) :=
  k_reduce least_value (k_concat (k_join_map (fun _ l d => (d, l + 1)) inner edges) nodes).
(* bfs.rs:12-44; [arrange_by_key] does not change the collection *)
Definition bfs (rounds : nat) (edges : coll (N * N)) (roots : coll N) : coll (N * nat) :=
  let nodes := k_map (fun x => (x, 0)) roots in
  k_iterate rounds (bfs_body edges nodes) nodes.

(** propagate.rs *)
(* propagate.rs:90, the round at which a label enters: 256 times the number of bits of what [logic] says of it *)
Definition pg_round {L : Type} (logic : L -> BinNums.N) (l : L) : nat := 256 * BinNat.N.size_nat (logic l).
(* propagate.rs:92-103.  [proposals] is a variable without a source: it is empty in the first round, and then what
   the labels of the round before give.  In a round are the nodes which entered at it or before. *)
Definition pg_labels {L : Type} {OL : Ord L} (nodes : coll (N * L)) (logic : L -> BinNums.N) (round : nat) (proposals : coll (N * L)) : coll (N * L) :=
  k_reduce least_value (k_concat proposals (k_filter (fun x => pg_round logic (snd x) <=? round) nodes)).
Definition pg_propagate {L : Type} {OL : Ord L} (edges : coll (N * N)) (labels : coll (N * L)) : coll (N * L) :=
  k_join_map (fun _ l d => (d, l)) labels edges.
(* propagate.rs:54-109, the labels in round [rounds] *)
Fixpoint propagate_core {L : Type} {OL : Ord L} (rounds : nat) (edges : coll (N * N)) (nodes : coll (N * L)) (logic : L -> BinNums.N) : coll (N * L) :=
  pg_labels nodes logic rounds
    match rounds with
    | 0 => []
    | S round => pg_propagate edges (propagate_core round edges nodes logic)
    end.
(* propagate.rs:33-44 *)
Definition propagate_at {L : Type} {OL : Ord L} (rounds : nat) (edges : coll (N * N)) (nodes : coll (N * L)) (logic : L -> BinNums.N) : coll (N * L) :=
  propagate_core rounds edges nodes logic.
(* propagate.rs:16-26 *)
Definition propagate {L : Type} {OL : Ord L} (rounds : nat) (edges : coll (N * N)) (nodes : coll (N * L)) : coll (N * L) :=
  propagate_core rounds edges nodes (fun _ => 0%N).

(** scc.rs *)
(* scc.rs:56-88 *)
Definition trim_edges (rounds : nat) (cycle edges : coll (N * N)) (logic : N -> BinNums.N) : coll (N * N) :=
  let nodes := consolidate (k_map (fun x => (snd x, snd x)) edges) in
  let labels := propagate_at rounds cycle nodes logic in
  k_map (fun x => let '((x1, x2), _) := x in (x2, x1))
    (k_filter (fun x => let '(_, (l1, l2)) := x in eqb l1 l2)
      (k_join_map (fun e2 (e1l1 : N * N) l2 => ((fst e1l1, e2), (snd e1l1, l2)))
        (k_join_map (fun e1 e2 l1 => (e2, (e1, l1))) edges labels) labels)).
(* scc.rs:50, the body of the loop *)
Definition scc_body (inner : nat) (edges trans : coll (N * N)) (logic : N -> BinNums.N) (cycle : coll (N * N)) : coll (N * N) :=
  trim_edges inner (trim_edges inner cycle edges logic) trans logic.
(* scc.rs:31-54; [inner] is the number of rounds of the loops within *)
Definition strongly_connected_at (rounds inner : nat) (graph : coll (N * N)) (logic : N -> BinNums.N) : coll (N * N) :=
  let trans := k_map (fun x => (snd x, fst x)) graph in
  k_iterate rounds (scc_body inner graph trans logic) graph.
(* scc.rs:15-24 *)
Definition strongly_connected (rounds inner : nat) (graph : coll (N * N)) : coll (N * N) :=
  strongly_connected_at rounds inner graph (fun _ => 0%N).

(** bijkstra.rs *)
(* bijkstra.rs:71-76.  Simplified: distances are natural numbers, not [u32] *)
Definition bd_reached (goals : coll (N * N)) (forward reverse : coll (N * (N * nat))) : coll (N * N * nat) :=
  k_semijoin (k_reduce least_value
    (k_join_map (fun _ (s : N * nat) (t : N * nat) => ((fst s, fst t), snd s + snd t)) forward reverse)) goals.
(* bijkstra.rs:78-84 *)
Definition bd_active (goals : coll (N * N)) (reached : coll (N * N * nat)) : coll (N * N) :=
  consolidate (k_concat (k_map fst (k_negate reached)) goals).
(* bijkstra.rs:87-98 and 105-116, the same but for names *)
Definition bd_next (active : coll N) (edges : coll (N * N)) (dists : coll (N * (N * nat))) : coll (N * (N * nat)) :=
  let searching := k_map (fun x => let '(src, (med, dist)) := x in (med, (src, dist)))
    (k_semijoin (k_map (fun x => let '(med, (src, dist)) := x in (src, (med, dist))) dists) (k_distinct active)) in
  k_map (fun x => let '((next, src), dist) := x in (next, (src, dist)))
    (k_reduce least_value
      (k_map (fun x => let '(next, (src, dist)) := x in ((next, src), dist))
        (k_concat (k_join_map (fun _ (sd : N * nat) next => (next, (fst sd, snd sd + 1))) searching edges) dists))).
(* bijkstra.rs:49-120, one round for both variables *)
Definition bd_round (forward_edges reverse_edges goals : coll (N * N)) (fr : coll (N * (N * nat)) * coll (N * (N * nat))) :=
  let active := bd_active goals (bd_reached goals (fst fr) (snd fr)) in
  (bd_next (k_map fst active) forward_edges (fst fr), bd_next (k_map snd active) reverse_edges (snd fr)).
Fixpoint bd_rounds (rounds : nat) (forward_edges reverse_edges goals : coll (N * N)) : coll (N * (N * nat)) * coll (N * (N * nat)) :=
  match rounds with
  | 0 => (k_map (fun g => (fst g, (fst g, 0))) goals, k_map (fun g => (snd g, (snd g, 0))) goals)
  | S rounds => bd_round forward_edges reverse_edges goals (bd_rounds rounds forward_edges reverse_edges goals)
  end.
(* bijkstra.rs:22-124 *)
Definition bidijkstra (rounds : nat) (edges goals : coll (N * N)) : coll (N * N * nat) :=
  let '(forward, reverse) := bd_rounds rounds edges (k_map (fun x => (snd x, fst x)) edges) goals in
  bd_reached goals forward reverse.

(** sequential.rs *)
(* collection.rs:1215-1218 *)
Definition k_antijoin {K V : Type} {OK : Ord K} (c : coll (K * V)) (keys : coll K) : coll (K * V) :=
  k_concat c (k_negate (k_semijoin c keys)).
(* sequential.rs:58-87, the body of the loop; [unwrap] is of a value that is there *)
Definition sq_body {V : Type} {OV : Ord V} (logic : N -> list (V * Z) -> V) (edges : coll (N * N)) (old_state : coll (N * V)) (new_state : coll (N * option V)) : coll (N * option V) :=
  let forward := k_filter (fun e => ltb (fst e) (snd e)) edges in
  let reverse := k_filter (fun e => ltb (snd e) (fst e)) edges in
  let new_messages := k_join_map (fun _ (v : option V) (d : N) => (d, v)) new_state forward in
  let incomplete := k_distinct (k_map fst (k_filter (fun x => match snd x with None => true | Some _ => false end) new_messages)) in
  let new_messages := k_flat_map (fun x => match snd x with Some v => [(fst x, v)] | None => [] end) new_messages in
  let old_messages := k_join_map (fun _ (v : V) (d : N) => (d, v)) old_state reverse in
  let messages := k_antijoin (k_concat new_messages old_messages) incomplete in
  k_concat (k_reduce (fun k vs => [(Some (logic k vs), 1%Z)]) messages) (k_map (fun x => (x, None)) incomplete).
(* sequential.rs:43-88 *)
Definition sequence {V : Type} {OV : Ord V} (rounds : nat) (state : coll (N * V)) (edges : coll (N * N)) (logic : N -> list (V * Z) -> V) : coll (N * option V) :=
  k_iterate rounds (sq_body logic edges state) (k_map (fun x => (fst x, None)) state).
End Graph.
