(** * Model of differential-dataflow/src/algorithms/prefix_sum.rs

    The algorithm is a composition of operators.  Here a collection is what it is at one time, a list of
    records with their counts, and each operator is the function on collections that other properties say it
    computes: map, flat_map, filter, negate and concat (C30), reduce (C23), distinct (C27), join and semijoin (C21),
    iterate (C29).  Positions are natural numbers; [bits] is the width of a [usize], 64. *)
From Verif Require Export Base.Order Base.Difference Model.ConsolidationM.

Definition coll (D : Type) := list (D * Z).
Definition k_map {D E} (f : D -> E) (c : coll D) : coll E := map (fun x => (f (fst x), snd x)) c.
Definition k_flat_map {D E} (f : D -> list E) (c : coll D) : coll E := flat_map (fun x => map (fun e => (e, snd x)) (f (fst x))) c.
Definition k_filter {D} (p : D -> bool) (c : coll D) : coll D := filter (fun x => p (fst x)) c.
Definition k_negate {D} (c : coll D) : coll D := map (fun x => (fst x, Z.opp (snd x))) c.
Definition k_concat {D} (c1 c2 : coll D) : coll D := c1 ++ c2.
(* each record that counts more than zero, once *)
Definition k_distinct {D} {OD : Ord D} (c : coll D) : coll D := map (fun x => (fst x, 1%Z)) (filter (fun x => (0 <? snd x)%Z) (consolidate c)).
(* each pair of records of the same key *)
Definition k_join_map {K V1 V2 D} {OK : Ord K} (f : K -> V1 -> V2 -> D) (c1 : coll (K * V1)) (c2 : coll (K * V2)) : coll D :=
  flat_map (fun x => map (fun y => (f (fst (fst x)) (snd (fst x)) (snd (fst y)), Z.mul (snd x) (snd y)))
                         (filter (fun y => eqb (fst (fst y)) (fst (fst x))) c2)) c1.
Definition k_semijoin {K V} {OK : Ord K} (c : coll (K * V)) (keys : coll K) : coll (K * V) :=
  k_join_map (fun k v (_ : unit) => (k, v)) c (k_map (fun k => (k, tt)) keys).
(* for each key with any values, what [logic] says of the values with counts other than zero, in order *)
Definition k_values {K V} {OK : Ord K} {OV : Ord V} (c : coll (K * V)) (k : K) : list (V * Z) :=
  consolidate (map (fun x => (snd (fst x), snd x)) (filter (fun x => eqb (fst (fst x)) k) c)).
Definition k_reduce {K V D} {OK : Ord K} {OV : Ord V} (logic : K -> list (V * Z) -> list (D * Z)) (c : coll (K * V)) : coll (K * D) :=
  flat_map (fun k => match k_values c k with [] => [] | input => map (fun o => ((k, fst o), snd o)) (logic k input) end)
    (map fst (consolidate (map (fun x => (fst (fst x), 1%Z)) c))).
(* the body, [rounds] times over: all the iterations that there are *)
Fixpoint k_iterate {D} (rounds : nat) (body : coll D -> coll D) (c : coll D) : coll D :=
  match rounds with 0 => c | S rounds => body (k_iterate rounds body c) end.

Section PrefixSum.
Context {K D : Type} {OK : Ord K} {OD : Ord D}.
Variable bits rounds : nat.
Local Notation range := (nat * nat * K)%type.      (* pos, log, key *)

(* prefix_sum.rs:62-71, the body of the loop; [input[0]] panics when there is none, but the input of reduce is not empty *)
Definition ps_double (combine : K -> D -> D -> D) (unit_ranges ranges : coll (range * D)) : coll (range * D) :=
  k_concat
    (k_reduce (fun (r : range) (input : list (nat * D * Z)) =>
        match input with
        | [] => []
        | [x] => [(snd (fst x), 1%Z)]
        | x :: y :: _ => [(combine (snd r) (snd (fst x)) (snd (fst y)), 1%Z)]
        end)
      (k_map (fun x => let '(pos, log, key, data) := x in ((Nat.div2 pos, S log, key), (pos, data)))
        (k_filter (fun x : range * D => snd (fst (fst x)) <? bits) ranges)))
    unit_ranges.
(* prefix_sum.rs:43-73 *)
Definition ps_aggregate (combine : K -> D -> D -> D) (c : coll (nat * K * D)) : coll (range * D) :=
  let unit_ranges := k_map (fun x => let '(index, key, data) := x in ((index, 0, key), data)) c in
  k_iterate rounds (ps_double combine unit_ranges) unit_ranges.

(* prefix_sum.rs:106-114 *)
Definition ps_requests (queries : coll (nat * K)) : coll range :=
  k_distinct (k_flat_map (fun q => map (fun i => (Nat.shiftr (fst q) i - 1, i, snd q)) (filter (fun i => Nat.testbit (fst q) i) (seq 0 bits))) queries).
(* prefix_sum.rs:117-130 *)
Definition ps_used (ranges : coll (range * D)) (requests : coll range) (zero : D) : coll (range * D) :=
  let full := k_semijoin ranges requests in
  let zero_ranges := k_concat (k_negate (k_map (fun x => (fst x, zero)) full)) (k_map (fun r => (r, zero)) requests) in
  k_concat full zero_ranges.
(* prefix_sum.rs:133-137 *)
Definition ps_init (queries : coll (nat * K)) (zero : D) : coll (nat * K * D) := k_distinct (k_map (fun q => ((0, snd q), zero)) queries).
(* prefix_sum.rs:144-151, the body of the loop *)
Definition ps_expand (combine : K -> D -> D -> D) (used : coll (range * D)) (init states : coll (nat * K * D)) : coll (nat * K * D) :=
  k_distinct (k_concat
    (k_join_map (fun (pk : nat * K) (ld : nat * D) state => ((fst pk + Nat.shiftl 1 (fst ld), snd pk), combine (snd pk) state (snd ld)))
      (k_map (fun x => let '(pos, log, key, data) := x in ((Nat.shiftl pos log, key), (log, data))) used) states)
    init).
(* prefix_sum.rs:76-154 *)
Definition ps_broadcast (combine : K -> D -> D -> D) (ranges : coll (range * D)) (queries : coll (nat * K)) (zero : D) : coll (nat * K * D) :=
  let used := ps_used ranges (ps_requests queries) zero in
  let init := ps_init queries zero in
  k_semijoin (k_iterate rounds (ps_expand combine used init) init) queries.
(* prefix_sum.rs:32-39 *)
Definition prefix_sum_at (combine : K -> D -> D -> D) (c : coll (nat * K * D)) (locations : coll (nat * K)) (zero : D) : coll (nat * K * D) :=
  ps_broadcast combine (ps_aggregate combine c) locations zero.
(* prefix_sum.rs:28-30 *)
Definition prefix_sum (combine : K -> D -> D -> D) (c : coll (nat * K * D)) (zero : D) : coll (nat * K * D) :=
  prefix_sum_at combine c (k_map fst c) zero.
End PrefixSum.
