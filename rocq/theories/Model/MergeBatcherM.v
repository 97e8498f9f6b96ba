(** Model of differential-dataflow/src/trace/implementations/merge_batcher.rs *)
From Verif Require Export Model.LatticeM Base.Arrays Base.Difference.

(** ** The batcher, generic in its merger -- merge_batcher.rs:19-146
    The size logger ([account], [record], lines 148-178) and the stash of recycled, always cleared,
    buffers are not modelled. *)
Section Batcher.
Context {T : Type} {TT : Time T}.
Context {Chunk : Type}.
(* trait Merger, merge_batcher.rs:189-212; [None] is a panic *)
Variable m_merge : list Chunk -> list Chunk -> option (list Chunk).
Variable m_extract : list Chunk -> list T -> option (list T * list Chunk * list Chunk).  (* frontier, readied, kept *)
Variable m_len : Chunk -> nat.

(* merge_batcher.rs:19-40; the last element of the vector [chains] is the head of the list *)
Record batcher := { mb_chains : list (nat * list Chunk); mb_lower : list T; mb_frontier : list T }.

(* merge_batcher.rs:49-59 *)
Definition mb_new : batcher := {| mb_chains := []; mb_lower := [tmin]; mb_frontier := [] |}.

(* merge_batcher.rs:142-146 chain_push: the weight is the summed update count *)
Definition chain_push (chains : list (nat * list Chunk)) (chain : list Chunk) : list (nat * list Chunk) :=
  (fold_right Nat.add 0 (map m_len chain), chain) :: chains.

(* merge_batcher.rs:112-117, the loop of insert_chain, while the newest chain weighs at least half of
   its predecessor.  Each round shortens the stack; [fuel] is its length. *)
Fixpoint insert_loop (fuel : nat) (chains : list (nat * list Chunk)) : option (list (nat * list Chunk)) :=
  match fuel, chains with
  | S fuel, (w1, list1) :: (w2, list2) :: rest =>
      if w2 / 2 <=? w1 then
        merged <- m_merge list1 list2;
        insert_loop fuel (chain_push rest merged)
      else Some chains
  | 0, _ :: _ :: _ => None
  | _, _ => Some chains
  end.

(* merge_batcher.rs:109-119 insert_chain *)
Definition insert_chain (b : batcher) (chain : list Chunk) : option batcher :=
  match chain with
  | [] => Some b
  | _ => let chains := chain_push (mb_chains b) chain in
         chains <- insert_loop (length chains) chains;
         Some {| mb_chains := chains; mb_lower := mb_lower b; mb_frontier := mb_frontier b |}
  end.

(* merge_batcher.rs:100-104 push_into *)
Definition mb_push (b : batcher) (chunk : Chunk) : option batcher := insert_chain b [chunk].

(* merge_batcher.rs:67-72, merging all chains into one *)
Fixpoint seal_loop (fuel : nat) (chains : list (nat * list Chunk)) : option (list (nat * list Chunk)) :=
  match fuel, chains with
  | S fuel, (_, list1) :: (_, list2) :: rest =>
      merged <- m_merge list1 list2;
      seal_loop fuel (chain_push rest merged)
  | 0, _ :: _ :: _ => None
  | _, _ => Some chains
  end.

(* merge_batcher.rs:65-91 seal; returns the readied chain and its description (lower, upper, since) *)
Definition mb_seal (b : batcher) (upper : list T) : option (batcher * list Chunk * (list T * list T * list T)) :=
  chains <- seal_loop (length (mb_chains b)) (mb_chains b);
  let '(merged, chains) := match chains with [] => ([], []) | (_, c) :: rest => (c, rest) end in
  ' (frontier, readied, kept) <- m_extract merged upper;
  let chains := match kept with [] => chains | _ => chain_push chains kept end in
  Some ({| mb_chains := chains; mb_lower := upper; mb_frontier := frontier |},
        readied, (mb_lower b, upper, [tmin])).
End Batcher.

(** ** VecMerger -- merge_batcher.rs:223-381 *)
Section VecMerger.
Context {D T R : Type} {OD : Ord D} {TT : Time T} {DR : Diff R}.
Local Notation U := (D * T * R)%type.
(* SizableContainer::at_capacity of an output buffer: len = capacity, for some non-zero capacity *)
Variable at_capacity : list U -> bool.

(* merge_batcher.rs:260-274 refill: a drained queue is replaced by the next chunk, if there is one *)
Definition refill (q : list U) (it : list (list U)) : list U * list (list U) :=
  match q, it with
  | [], chunk :: it => (chunk, it)
  | _, _ => (q, it)
  end.

(* merge_batcher.rs:304-330, the merge loop; on exit 332-338.  Each round consumes an update, so
   [fuel] bounded by the number of updates suffices (theorem); running out is [None]. *)
Fixpoint vm_loop (fuel : nat) (q1 q2 : list U) (it1 it2 : list (list U)) (result : list U) (output : list (list U))
  : option (list (list U)) :=
  match q1, q2 with
  | (dt1, r1) :: q1', (dt2, r2) :: q2' =>
      match fuel with
      | 0 => None
      | S fuel =>
          let '(q1, q2, result) :=
            match cmp dt1 dt2 with
            | Lt => (q1', q2, result ++ [(dt1, r1)])
            | Gt => (q1, q2', result ++ [(dt2, r2)])
            | Eq => let r := dplus r1 r2 in
                    (q1', q2', if negb (is_zero r) then result ++ [(dt1, r)] else result)
            end in
          let '(result, output) := if at_capacity result then ([], output ++ [result]) else (result, output) in
          let '(q1, it1) := refill q1 it1 in
          let '(q2, it2) := refill q2 it2 in
          vm_loop fuel q1 q2 it1 it2 result output
      end
  | _, _ =>
      let output := match result with [] => output | _ => output ++ [result] end in
      let output := match q1 with [] => output | _ => output ++ [q1] end in
      let output := match q2 with [] => output | _ => output ++ [q2] end in
      Some (output ++ it1 ++ it2)
  end.

(* [iter.next().unwrap_or_default()], lines 298-299 *)
Definition first_chunk (l : list (list U)) : list U * list (list U) :=
  match l with [] => ([], []) | c :: l => (c, l) end.

(* merge_batcher.rs:286-339 merge *)
Definition vm_merge (list1 list2 : list (list U)) : option (list (list U)) :=
  let '(q1, it1) := first_chunk list1 in
  let '(q2, it2) := first_chunk list2 in
  vm_loop (length (concat list1) + length (concat list2)) q1 q2 it1 it2 [] [].

(* merge_batcher.rs:355-370, one update of extract *)
Definition vm_extract_one (upper : list T) (st : list T * (list U * list (list U)) * (list U * list (list U))) (u : U) :=
  let '(frontier, (ready, ship), (keep, kept)) := st in
  let '(frontier, ready, keep) :=
    if ac_less_equal upper (snd (fst u)) then (ac_insert frontier (snd (fst u)), ready, keep ++ [u])
    else (frontier, ready ++ [u], keep) in
  let '(keep, kept) := if at_capacity keep then ([], kept ++ [keep]) else (keep, kept) in
  let '(ready, ship) := if at_capacity ready then ([], ship ++ [ready]) else (ready, ship) in
  (frontier, (ready, ship), (keep, kept)).

(* merge_batcher.rs:341-378 extract; the frontier was cleared by the caller (line 78) *)
Definition vm_extract (merged : list (list U)) (upper : list T) : option (list T * list (list U) * list (list U)) :=
  let '(frontier, (ready, ship), (keep, kept)) :=
    fold_left (fun st chunk => fold_left (vm_extract_one upper) chunk st) merged ([], ([], []), ([], [])) in
  let kept := match keep with [] => kept | _ => kept ++ [keep] end in
  let ship := match ready with [] => ship | _ => ship ++ [ready] end in
  Some (frontier, ship, kept).

Definition vm_len (chunk : list U) : nat := length chunk.   (* merge_batcher.rs:380 *)
End VecMerger.

(** Running a client. *)
Section Run.
Context {T : Type} {TT : Time T} {Chunk : Type}.
Variable m_merge : list Chunk -> list Chunk -> option (list Chunk).
Variable m_extract : list Chunk -> list T -> option (list T * list Chunk * list Chunk).
Variable m_len : Chunk -> nat.

Inductive mb_op := MPush (c : Chunk) | MSeal (upper : list T).

(* the outputs: each seal's readied chain and description, and the frontier reported next (lines 94-97) *)
Fixpoint mb_run (b : batcher) (ops : list mb_op)
  : option (batcher * list (list Chunk * (list T * list T * list T) * list T)) :=
  match ops with
  | [] => Some (b, [])
  | MPush c :: ops => b <- mb_push m_merge m_len b c; mb_run b ops
  | MSeal upper :: ops =>
      ' (b, readied, desc) <- mb_seal m_merge m_extract m_len b upper;
      ' (b', outs) <- mb_run b ops;
      Some (b', (readied, desc, mb_frontier b) :: outs)
  end.
End Run.
