(** * Model of dogsdogsdogs/src/operators/half_join.rs: half_join, half_join_internal_unsafe and process_proposals
    [None] is a panic.  The hash map of stashed proposals is a list of entries with distinct capabilities; its order is
    arbitrary.  The yield function may answer anything: what it answers is the list [ys], and it does not ask to yield
    when the list is exhausted. *)
From Verif Require Export Model.JoinTacticM.

(** ** Looking up a key: the loops that half_join.rs and lookup_map.rs share *)
Section LookUp.
Context {B C K V T R X : Type} {OK : Ord K} {OV : Ord V} {TT : Time T} {DR : Diff R}.
Variable cops : CursorOps B C K V T R.
(* half_join.rs:347-363, lookup_map.rs:98-110: [while let Some(val) = cursor.get_val() { .. cursor.step_val() }]; [emit] is what
   is produced for a value and its updates; [fuel] bounds the rounds *)
Fixpoint each_val (emit : V -> list (T * R) -> list X) (fuel : nat) (tbs : list B) (tc : CursorList C) : option (CursorList C * list X) :=
  vo <- c_get_val (cl_ops cops) tbs tc;
  match vo with
  | None => Some (tc, [])
  | Some v =>
      match fuel with
      | 0 => None
      | S fuel =>
          ts <- c_map_times (cl_ops cops) tbs tc;
          tc <- c_step_val (cl_ops cops) tbs tc;
          ' (tc, rest) <- each_val emit fuel tbs tc;
          Some (tc, emit v ts ++ rest)
      end
  end.
(* half_join.rs:344-365, lookup_map.rs:94-112 *)
Definition look_up (emit : V -> list (T * R) -> list X) (fuel : nat) (tbs : list B) (tc : CursorList C) (key : K) : option (CursorList C * list X) :=
  tc <- c_seek_key (cl_ops cops) tbs tc key;
  ko <- c_get_key (cl_ops cops) tbs tc;
  if match ko with Some k => eqb k key | None => false end then
    ' (tc, outs) <- each_val emit fuel tbs tc;
    tc <- c_rewind_vals (cl_ops cops) tbs tc;
    Some (tc, outs)
  else Some (tc, []).
End LookUp.

(* entry(capability).or_insert(Vec::new()).append(data) *)
Fixpoint stash_add {T P} {OT : Ord T} (cap : T) (ps : list P) (stash : list (T * list P)) : list (T * list P) :=
  match stash with
  | [] => [(cap, ps)]
  | (c, qs) :: stash => if eqb c cap then (c, qs ++ ps) :: stash else (c, qs) :: stash_add cap ps stash
  end.
Definition stash_adds {T P} {OT : Ord T} (more stash : list (T * list P)) : list (T * list P) :=
  fold_left (fun stash e => stash_add (fst e) (snd e) stash) more stash.

Section HalfJoin.
Context {B M C K V1 V2 D T R1 R2 R3 : Type} {OK : Ord K} {OV1 : Ord V1} {OV2 : Ord V2} {TT : Time T}
  {D1 : Diff R1} {D2 : Diff R2} {D3 : Diff R3} {MU : Multiply R1 R2 R3}.
Variable bops : BatchOps B M T.
Variable cops : CursorOps B C K V2 T R2. Variable new : C.
Variable frontier_func : T -> list T.      (* the times it inserts *)
Variable comparison : T -> T -> bool.
Variable output_func : K -> V1 -> V2 -> D.
Local Notation proposal := (K * V1 * T * T * R1)%type.    (* ((key, val1, time), initial, diff1) *)
Local Notation update := (D * T * T * R3)%type.           (* ((dout, time), initial, diff) *)

(* [yielded || yield_function(timer, work)] *)
Definition ask (yielded : bool) (ys : list bool) : bool * list bool :=
  if yielded then (true, ys) else match ys with [] => (false, []) | y :: ys => (y, ys) end.

(* half_join.rs:348-360, with half_join's output_func, 97-103 *)
Definition hj_emit (p : proposal) (val2 : V2) (ts : list (T * R2)) : list update :=
  let '(key, val1, time, initial, diff1) := p in
  let output_buffer := consolidate (map (fun td => (join (fst td) time, snd td)) (filter (fun td => comparison (fst td) initial) ts)) in
  map (fun td => (output_func key val1 val2, fst td, initial, dmul diff1 (snd td))) output_buffer.

(* half_join.rs:339-368: the loop of process_proposals; the proposals as it leaves them, what is produced, whether it yielded *)
Fixpoint hj_proposals (fuel : nat) (tbs : list B) (frontier : list T) (yielded : bool) (ys : list bool) (tc : CursorList C) (ps : list proposal)
  : option (list proposal * list update * (bool * list bool)) :=
  match ps with
  | [] => Some ([], [], (yielded, ys))
  | p :: ps =>
      let '(key, val1, time, initial, diff1) := p in
      let '(yielded, ys) := ask yielded ys in
      if negb yielded && negb (existsb (fun f => comparison f initial) frontier) then
        ' (tc, outs) <- look_up cops (hj_emit p) fuel tbs tc key;
        ' (ps, rest, y) <- hj_proposals fuel tbs frontier yielded ys tc ps;
        Some ((key, val1, time, initial, dzero) :: ps, outs ++ rest, y)
      else
        ' (ps, rest, y) <- hj_proposals fuel tbs frontier yielded ys tc ps;
        Some (p :: ps, rest, y)
  end.
(* half_join.rs:303-371 process_proposals; [trace.cursor()] panics if the trace cannot be read, trace/mod.rs:62-69 *)
Definition process_proposals (s : Spine B M T) (frontier : list T) (ys : list bool) (ps : list proposal) : option (list proposal * list update * (bool * list bool)) :=
  let ps := consolidate (A:=K*V1*T*T) ps in
  tbs <- batches_through bops s [];
  tc <- cursor_list cops new tbs;
  hj_proposals (sum_len (b_len bops) tbs) tbs frontier false ys tc ps.

(* half_join.rs:238-244: [position(..).unwrap()] *)
Fixpoint hj_position (t : T) (chain : list T) : option nat :=
  match chain with [] => None | c :: chain => if tle c t then Some 0 else match hj_position t chain with Some n => Some (S n) | None => None end end.
Fixpoint hj_peel (chain : list T) (additions : list (list proposal)) (ps : list proposal) : option (list (list proposal)) :=
  match ps with
  | [] => Some additions
  | p :: ps =>
      n <- hj_position (snd (fst p)) chain;
      hj_peel chain (firstn n additions ++ (nth n additions [] ++ [p]) :: skipn (S n) additions) ps
  end.
(* [capability.delayed(&time)] panics unless the time is at or after that of the capability *)
Definition delayed (cap time : T) : option T := if tle cap time then Some time else None.
Fixpoint hj_delay (cap : T) (more : list (T * list proposal)) : option (list (T * list proposal)) :=
  match more with [] => Some [] | (t, ps) :: more => c <- delayed cap t; rest <- hj_delay cap more; Some ((c, ps) :: rest) end.

(* half_join.rs:225-254: what is left of an entry after its proposals were processed, and what moves to later capabilities *)
Definition hj_remaining (cap : T) (ps : list proposal) : option (list proposal * list (T * list proposal)) :=
  let ps := filter (fun p => negb (is_zero (snd p))) ps in
  let chain := ac_from (map (fun p => snd (fst p)) ps) in
  if (length chain =? 1) && negb (ac_less_equal chain cap) then
    more <- hj_delay cap (map (fun t => (t, ps)) chain);
    Some ([], more)
  else if 1 <? length chain then
    additions <- hj_peel chain (repeat [] (length chain)) ps;
    more <- hj_delay cap (List.combine chain additions);
    Some ([], more)
  else Some (ps, []).

(* half_join.rs:202-256: the loop over the stash *)
Fixpoint hj_stash (s : Spine B M T) (frontier2 : list T) (yielded : bool) (ys : list bool) (stash : list (T * list proposal))
  : option (list (T * list proposal) * list (T * list proposal) * list (T * list update) * bool) :=
  match stash with
  | [] => Some ([], [], [], yielded)
  | (cap, ps) :: stash =>
      let '(yielded, ys) := ask yielded ys in
      if negb yielded && negb (ac_less_equal frontier2 cap) then
        ' (ps, outs, (yielded, ys)) <- process_proposals s frontier2 ys ps;
        ' (ps, more) <- hj_remaining cap ps;
        ' (stash, additions, rest, yielded) <- hj_stash s frontier2 yielded ys stash;
        Some ((cap, ps) :: stash, stash_adds more additions, (cap, outs) :: rest, yielded)
      else
        ' (stash, additions, rest, yielded) <- hj_stash s frontier2 yielded ys stash;
        Some ((cap, ps) :: stash, additions, rest, yielded)
  end.

(** half_join.rs:165-169: the stash, and the frontiers of the handle on the trace, until it is dropped *)
Record hstate := { h_stash : list (T * list proposal); h_trace : option (list T * list T) }.
(* half_join.rs:164-165: physical compaction is not held back (agent.rs:54-66) *)
Definition h_start (handle : list T * list T) : hstate := {| h_stash := []; h_trace := Some (fst handle, antichain_join (snd handle) []) |}.
(* half_join.rs:178-290: one activation; what was sent, at which capability, and whether the operator asks to be activated again.
   The messages of the second input are only drained. *)
Definition h_activate (s : Spine B M T) (msgs1 : list (T * list proposal)) (frontier1 frontier2 : list T) (ys : list bool) (h : hstate)
  : option (hstate * list (T * list update) * bool) :=
  let stash := stash_adds msgs1 (h_stash h) in
  ' (stash, additions, outs, yielded) <- match h_trace h with
                                         | Some _ => hj_stash s frontier2 false ys stash
                                         | None => Some (stash, [], [], false)
                                         end;
  let stash := filter (fun e => match snd e with [] => false | _ => true end) stash in
  let stash := stash_adds additions stash in
  let frontier := ac_from (flat_map frontier_func (frontier1 ++ map fst stash)) in
  let trace := match h_trace h with
               | Some (L, P) => match frontier1, stash with [], [] => None | _, _ => Some (antichain_join L frontier, P) end
               | None => None
               end in
  Some ({| h_stash := stash; h_trace := trace |}, outs, yielded).
End HalfJoin.
Arguments hstate : clear implicits.
