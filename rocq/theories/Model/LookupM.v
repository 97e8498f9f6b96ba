(** * Model of dogsdogsdogs/src/operators/lookup_map.rs, and of count.rs, propose.rs, validate.rs over it
    [None] is a panic.  The hash map of stashed prefixes is a list of entries with distinct capabilities; its order is arbitrary. *)
From Verif Require Export Model.HalfJoinM.

Section LookupMap.
Context {B M C K V P T R R2 D R3 : Type} {OK : Ord K} {OV : Ord V} {TT : Time T} {DR : Diff R} {D2 : Diff R2} {D3 : Diff R3}.
Variable bops : BatchOps B M T.
Variable cops : CursorOps B C K V T R2. Variable new : C.
Variable key_selector : P -> K.                             (* what it writes to its key argument *)
Variable output_func : P -> R -> V -> R2 -> D * R3.
Local Notation prefix := (P * T * R)%type.
Local Notation update := (D * T * R3)%type.

(* lookup_map.rs:84-88: a stable sort by key *)
Fixpoint lk_insert (p : prefix) (l : list prefix) : list prefix :=
  match l with
  | [] => [p]
  | q :: l => if leb (key_selector (fst (fst p))) (key_selector (fst (fst q))) then p :: q :: l else q :: lk_insert p l
  end.
Definition lk_sort (l : list prefix) : list prefix := fold_right lk_insert [] l.
(* lookup_map.rs:99-108 *)
Definition lk_emit (p : prefix) (value : V) (ts : list (T * R2)) : list update :=
  let '(pre, time, diff) := p in
  let count := fold_left (fun count td => if tle (fst td) time then dplus count (snd td) else count) ts dzero in
  if is_zero count then []
  else let '(dout, rout) := output_func pre diff value count in
       if is_zero rout then [] else [(dout, time, rout)].
(* lookup_map.rs:93-116: the loop over the prefixes of an entry; the prefixes as it leaves them, and what is produced *)
Fixpoint lk_prefixes (fuel : nat) (tbs : list B) (frontier2 : list T) (tc : CursorList C) (ps : list prefix) : option (list prefix * list update) :=
  match ps with
  | [] => Some ([], [])
  | p :: ps =>
      let '(pre, time, diff) := p in
      if negb (ac_less_equal frontier2 time) then
        ' (tc, outs) <- look_up cops (lk_emit p) fuel tbs tc (key_selector pre);
        ' (ps, rest) <- lk_prefixes fuel tbs frontier2 tc ps;
        Some ((pre, time, dzero) :: ps, outs ++ rest)
      else
        ' (ps, rest) <- lk_prefixes fuel tbs frontier2 tc ps;
        Some (p :: ps, rest)
  end.
(* lookup_map.rs:73-121: the loop over the stash; [trace.cursor()] panics if the trace cannot be read, trace/mod.rs:62-69 *)
Fixpoint lk_stash (s : Spine B M T) (frontier2 : list T) (stash : list (T * list prefix)) : option (list (T * list prefix) * list (T * list update)) :=
  match stash with
  | [] => Some ([], [])
  | (cap, ps) :: stash =>
      if negb (ac_less_equal frontier2 cap) then
        tbs <- batches_through bops s [];
        tc <- cursor_list cops new tbs;
        ' (ps, outs) <- lk_prefixes (sum_len (b_len bops) tbs) tbs frontier2 tc (lk_sort ps);
        ' (stash, rest) <- lk_stash s frontier2 stash;
        Some ((cap, filter (fun p => negb (is_zero (snd p))) ps) :: stash, (cap, outs) :: rest)
      else
        ' (stash, rest) <- lk_stash s frontier2 stash;
        Some ((cap, ps) :: stash, rest)
  end.

(** lookup_map.rs:44-48: the stash, and the frontiers of the handle on the trace, until it is dropped *)
Record lstate := { l_stash : list (T * list prefix); l_trace : option (list T * list T) }.
(* lookup_map.rs:44-48: physical compaction is not held back *)
Definition l_start (handle : list T * list T) : lstate := {| l_stash := []; l_trace := Some (fst handle, antichain_join (snd handle) []) |}.
(* lookup_map.rs:60-141: one activation; what was sent, at which capability.  The messages of the second input are only drained. *)
Definition l_activate (s : Spine B M T) (msgs1 : list (T * list prefix)) (frontier1 frontier2 : list T) (l : lstate)
  : option (lstate * list (T * list update)) :=
  let stash := stash_adds msgs1 (l_stash l) in
  ' (stash, outs) <- match l_trace l with Some _ => lk_stash s frontier2 stash | None => Some (stash, []) end;
  let stash := filter (fun e => match snd e with [] => false | _ => true end) stash in
  let frontier := ac_from (frontier1 ++ map fst stash) in
  let trace := match l_trace l with
               | Some (L, P) => match frontier1, stash with [], [] => None | _, _ => Some (antichain_join L frontier, P) end
               | None => None
               end in
  Some ({| l_stash := stash; l_trace := trace |}, outs).
End LookupMap.
Arguments lstate : clear implicits.

(** ** The operators over it, by their output_func *)
Section Operators.
Context {K V P R : Type} {DR : Diff R} {MU : Multiply R R R}.
(* count.rs:32-36; the count is an isize, here Z, read as a usize, of 64 bits *)
Definition count_output (index : nat) (p : P * N * nat) (r : R) (_ : unit) (s : Z) : (P * N * nat) * R :=
  let '(pre, c, i) := p in
  let s := Z.to_N (s mod 2 ^ 64) in
  if N.ltb c s then ((pre, c, i), r) else ((pre, s, index), r).
(* propose.rs:38 *)
Definition propose_output (p : P) (diff : R) (value : V) (sum : R) : (P * V) * R := ((p, value), dmul diff sum).
(* propose.rs:71 *)
Definition propose_distinct_output (p : P) (diff : R) (value : V) (_ : R) : (P * V) * R := ((p, value), diff).
(* validate.rs:34 *)
Definition validate_output (pv : P * V) (r : R) (_ : unit) (_ : R) : (P * V) * R := (pv, r).
End Operators.
