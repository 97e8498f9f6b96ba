(** * Model of differential-dataflow/src/trace/chunk/mod.rs and chunk/vec.rs
    The cursors are in ChunkCursorM.  [None] is a panic, or a loop that does not end within the bound
    given, which the theorems exclude.  Queues ([VecDeque]) are lists, popped at the head and pushed to at
    the end; [push_front] is a cons.  A function that only pushes to an output queue returns what it
    pushes.  Sharing ([Rc]), capacities and recycled buffers are not modelled. *)
From Verif Require Export Base.Difference Model.LatticeM Model.DescriptionM Model.ContainerM Model.SpineM.

(** ** Packing, mod.rs:184-235 *)
Section Pack.
Context {C : Type}.
Variable len : C -> nat.
Variable target : nat.                                      (* C::TARGET *)
Variable combine : C -> C -> option C.                      (* the closures may panic *)
Variable split : C -> nat -> option (C * C).
Variable seal : C -> option C.

(* mod.rs:226-232, the loop that peels; each round but the last leaves a shorter rest *)
Fixpoint pack_peel (fuel : nat) (rest : C) : option (option C * list C) :=
  match fuel with
  | 0 => None
  | S fuel =>
      ' (head, tail) <- split rest target;
      head <- seal head;
      if target <=? len tail then
        ' (carry, out) <- pack_peel fuel tail;
        Some (carry, head :: out)
      else Some (if 0 <? len tail then Some tail else None, [head])
  end.
(* mod.rs:216-235; the carry, which was empty, and what is pushed to the output *)
Definition pack_absorb (chunk : C) : option (option C * list C) :=
  match Nat.compare (len chunk) target with
  | Eq => chunk <- seal chunk; Some (None, [chunk])
  | Lt => Some (Some chunk, [])
  | Gt => pack_peel (len chunk) chunk
  end.
(* mod.rs:193-207 *)
Fixpoint pack_loop (input : list C) (carry : option C) : option (option C * list C) :=
  match input with
  | [] => Some (carry, [])
  | chunk :: input =>
      ' (carry, out) <-
        match carry with
        | None => pack_absorb chunk
        | Some c =>
            if len c + len chunk <=? target then
              c <- combine c chunk;
              if len c =? target then c <- seal c; Some (None, [c]) else Some (Some c, [])
            else
              c <- seal c;
              ' (carry, out) <- pack_absorb chunk;
              Some (carry, c :: out)
        end;
      ' (carry, out') <- pack_loop input carry;
      Some (carry, out ++ out')
  end.
(* mod.rs:184-211: the input left, and what is pushed to the output *)
Definition pack (input : list C) (done : bool) : option (list C * list C) :=
  ' (carry, out) <- pack_loop input None;
  match carry with
  | Some c => if done then c <- seal c; Some ([], out ++ [c]) else Some ([c], out)
  | None => Some ([], out)
  end.
End Pack.

(** ** The trait [Chunk], mod.rs:81-148 *)
Record ChunkOps (C T : Type) := {
  ch_target : nat;
  ch_len : C -> nat;
  ch_merge : list C -> list C -> option (list C * list C * list C);          (* in1, in2, out *)
  ch_extract : list C -> list T -> list T -> option (list C * list T * list C * list C);    (* of input, frontier, residual: input, residual, keep, ship *)
  ch_advance : list C -> list T -> bool -> option (list C * list C);         (* input, out *)
  ch_settle : list C -> bool -> option (list C * list C)                     (* input, out *)
}.
Arguments ch_target {C T}. Arguments ch_len {C T}. Arguments ch_merge {C T}. Arguments ch_extract {C T}.
Arguments ch_advance {C T}. Arguments ch_settle {C T}.

(** ** VecChunk, vec.rs *)
Section Vec.
Context {K V T R : Type} {OK : Ord K} {OV : Ord V} {TT : Time T} {DR : Diff R}.
Local Notation U := (K * V * T * R)%type.
Variable target : nat.                                      (* TARGET, which is 8192 *)

(* vec.rs:87-100.  The two loops are those of BatchContainer::advance *)
Definition vc_gallop (pred : U -> bool) (s : list U) (start : nat) : option nat :=
  if start <? length s then
    x <- get s start;
    if pred x then
      ' (pos, step) <- gallop_grow pred (S (length s)) s 0 (length s) start 1;
      pos <- gallop_shrink pred step s 0 (length s) pos (step / 2);
      Some (pos + 1)
    else Some start
  else Some start.

(* slice::chunks; a panic if the size is zero.  [fuel] is the length of the slice *)
Fixpoint vc_pieces (fuel : nat) (l : list U) : option (list (list U)) :=
  if target =? 0 then None else
  match l with
  | [] => Some []
  | _ => match fuel with
         | 0 => None
         | S fuel => rest <- vc_pieces fuel (skipn target l); Some (firstn target l :: rest)
         end
  end.
(* vec.rs:228-232; what remains of the result, and what is pushed to the output *)
Definition vc_flush (result : list U) (force : bool) : list U * list (list U) :=
  if (target <=? length result) || (force && negb (is_nil result)) then ([], [result]) else (result, []).
(* vec.rs:249-252, 257-260: a run of one input, piece by piece *)
Definition vc_copy (run : list U) (result : list U) (out : list (list U)) : option (list U * list (list U)) :=
  pieces <- vc_pieces (length run) run;
  Some (fold_left (fun ro piece => let (r, o) := vc_flush (fst ro ++ piece) false in (r, snd ro ++ o)) pieces (result, out)).
(* vec.rs:274-275, 277-278, the working chunk after a round; [None] is the [break] *)
Definition vc_refill (c : list U) (p : nat) (input : list (list U)) : option (list U * nat * list (list U)) :=
  if p =? length c then match input with c :: input => Some (c, 0, input) | [] => None end else Some (c, p, input).
(* vec.rs:281-285 *)
Definition vc_finish (c1 : list U) (p1 : nat) (in1 : list (list U)) (c2 : list U) (p2 : nat) (in2 : list (list U)) (result : list U) (out : list (list U))
  : list (list U) * list (list U) * list (list U) :=
  let (_, o) := vc_flush result true in
  (if p1 <? length c1 then skipn p1 c1 :: in1 else in1, if p2 <? length c2 then skipn p2 c2 :: in2 else in2, out ++ o).
(* vec.rs:240-280.  Each round consumes an update, so that [fuel] is at most the number of updates *)
Fixpoint vc_merge_loop (fuel : nat) (c1 : list U) (p1 : nat) (in1 : list (list U)) (c2 : list U) (p2 : nat) (in2 : list (list U))
    (result : list U) (out : list (list U)) : option (list (list U) * list (list U) * list (list U)) :=
  if (p1 <? length c1) && (p2 <? length c2) then
    match fuel with
    | 0 => None
    | S fuel =>
        a <- get c1 p1;
        b <- get c2 p2;
        ' (p1, p2, result, out) <-
          match cmp (fst a) (fst b) with
          | Lt =>
              run <- vc_gallop (fun u => ltb (fst u) (fst b)) c1 (p1 + 1);
              ' (result, out) <- vc_copy (firstn (run - p1) (skipn p1 c1)) result out;
              Some (run, p2, result, out)
          | Gt =>
              run <- vc_gallop (fun u => ltb (fst u) (fst a)) c2 (p2 + 1);
              ' (result, out) <- vc_copy (firstn (run - p2) (skipn p2 c2)) result out;
              Some (p1, run, result, out)
          | Eq =>
              let diff := dplus (snd a) (snd b) in
              let result := if negb (is_zero diff) then result ++ [(fst a, diff)] else result in
              let (result, o) := vc_flush result false in
              Some (p1 + 1, p2 + 1, result, out ++ o)
          end;
        match vc_refill c1 p1 in1 with
        | None => Some (vc_finish c1 p1 in1 c2 p2 in2 result out)
        | Some (c1, p1, in1) =>
            match vc_refill c2 p2 in2 with
            | None => Some (vc_finish c1 p1 in1 c2 p2 in2 result out)
            | Some (c2, p2, in2) => vc_merge_loop fuel c1 p1 in1 c2 p2 in2 result out
            end
        end
    end
  else Some (vc_finish c1 p1 in1 c2 p2 in2 result out).
(* vec.rs:224-286; both [unwrap]s panic on an empty queue *)
Definition vc_merge (in1 in2 : list (list U)) : option (list (list U) * list (list U) * list (list U)) :=
  match in1, in2 with
  | c1 :: in1', c2 :: in2' => vc_merge_loop (length (concat in1) + length (concat in2)) c1 0 in1' c2 0 in2' [] []
  | _, _ => None
  end.

(* vec.rs:288-306 *)
Definition vc_extract (input : list (list U)) (frontier residual : list T) : option (list (list U) * list T * list (list U) * list (list U)) :=
  match input with
  | [] => Some ([], residual, [], [])
  | chunk :: input =>
      let '(residual, k, s) :=
        fold_left (fun x u => let '(residual, k, s) := x in
                     if ac_less_equal frontier (snd (fst u)) then (ac_insert residual (snd (fst u)), k ++ [u], s) else (residual, k, s ++ [u]))
                  chunk (residual, [], []) in
      Some (input, residual, if negb (is_nil k) then [k] else [], if negb (is_nil s) then [s] else [])
  end.

(* vec.rs:353, [sort_by] on the times, which is stable *)
Fixpoint vc_time_insert (x : U) (l : list U) : list U :=
  match l with [] => [x] | y :: l' => if leb (snd (fst x)) (snd (fst y)) then x :: l else y :: vc_time_insert x l' end.
Definition vc_time_sort (l : list U) : list U := fold_right vc_time_insert [] l.
(* vec.rs:354-365: the accumulations of the runs of equal times, those that are zero left out; [kvt] is the
   first of the run under way, and [diff] what it has accumulated *)
Fixpoint vc_runs (kvt : K * V * T) (diff : R) (l : list U) : list U :=
  match l with
  | [] => if negb (is_zero diff) then [(kvt, diff)] else []
  | u :: l =>
      if eqb (snd (fst u)) (snd kvt) then vc_runs kvt (dplus diff (snd u)) l
      else (if negb (is_zero diff) then [(kvt, diff)] else []) ++ vc_runs (fst u) (snd u) l
  end.
Definition vc_accumulate (l : list U) : list U := match l with [] => [] | u :: l => vc_runs (fst u) (snd u) l end.
(* vec.rs:348-349: the leading updates of a key and value, and the others *)
Fixpoint vc_group (kv : K * V) (l : list U) : list U * list U :=
  match l with
  | [] => ([], [])
  | u :: l' => if eqb (fst (fst u)) kv then let (g, rest) := vc_group kv l' in (u :: g, rest) else ([], l)
  end.
(* vec.rs:346-367: what is pushed to the result, one after the other; [fuel] is the length of the buffer *)
Fixpoint vc_advance_loop (fuel : nat) (frontier : list T) (buf : list U) : option (list U) :=
  match buf with
  | [] => Some []
  | u :: _ =>
      match fuel with
      | 0 => None
      | S fuel =>
          let (g, rest) := vc_group (fst (fst u)) buf in
          let g := map (fun u => (fst (fst u), advance_by (snd (fst u)) frontier, snd u)) g in
          pushed <- vc_advance_loop fuel frontier rest;
          Some (vc_accumulate (vc_time_sort g) ++ pushed)
      end
  end.
(* vec.rs:362-363, 368: the chunks that the result makes *)
Fixpoint vc_fill (pushed : list U) (result : list U) : list (list U) :=
  match pushed with
  | [] => if negb (is_nil result) then [result] else []
  | u :: pushed =>
      let result := result ++ [u] in
      if target <=? length result then result :: vc_fill pushed [] else vc_fill pushed result
  end.
(* vec.rs:336-341: the number of updates before the last key and value *)
Definition vc_last_group (buf : list U) : nat :=
  match rev buf with
  | [] => 0
  | u :: _ => length buf - length (fst (vc_group (fst (fst u)) (rev buf)))
  end.
(* vec.rs:308-372.  [buf[0]] and [buf[buf.len() - 1]] exist, for the buffer is not empty *)
Definition vc_advance (input : list (list U)) (frontier : list T) (done : bool) : option (list (list U) * list (list U)) :=
  let buf := concat input in
  match buf with
  | [] => Some ([], [])
  | u :: _ =>
      if negb done && eqb (fst (fst u)) (fst (fst (last buf u))) then Some ([buf], [])
      else
        let end_ := if done then length buf else vc_last_group buf in
        let input := if end_ <? length buf then [skipn end_ buf] else [] in
        pushed <- vc_advance_loop (length buf) frontier (firstn end_ buf);
        Some (input, vc_fill pushed [])
  end.
(* vec.rs:378-385 *)
Definition vc_settle (input : list (list U)) (done : bool) : option (list (list U) * list (list U)) :=
  pack (@length U) target (fun acc next => Some (acc ++ next)) (fun chunk n => Some (firstn n chunk, skipn n chunk)) Some input done.

Definition vec_chunk : ChunkOps (list U) T :=
  {| ch_target := target; ch_len := @length U; ch_merge := vc_merge; ch_extract := vc_extract; ch_advance := vc_advance; ch_settle := vc_settle |}.
End Vec.

(** ** What is built with chunks, mod.rs *)
Section Harness.
Context {C T : Type} {TT : Time T}.
Variable ops : ChunkOps C T.
Definition total_len (l : list C) : nat := fold_right Nat.add 0 (map (ch_len ops) l).

(* mod.rs:717-720 *)
Fixpoint pairs_exceed (l : list C) : bool :=
  match l with
  | a :: (b :: _) as l' => (ch_target ops <? ch_len ops a + ch_len ops b) && pairs_exceed l'
  | _ => true
  end.
Definition is_graded (l : list C) : bool := forallb (fun c => ch_len ops c <=? ch_target ops) l && pairs_exceed l.
(* mod.rs:727-733 *)
Definition settle_all (input : list C) : option (list C) := ' (_, out) <- ch_settle ops input true; Some out.
(* mod.rs:742-755 *)
Fixpoint merge_chains_loop (fuel : nat) (in1 in2 : list C) : option (list C) :=
  if negb (is_nil in1) && negb (is_nil in2) then
    match fuel with
    | 0 => None
    | S fuel =>
        ' (in1, in2, out) <- ch_merge ops in1 in2;
        out' <- merge_chains_loop fuel in1 in2;
        Some (out ++ out')
    end
  else Some (in1 ++ in2).
Definition merge_chains (chain1 chain2 : list C) : option (list C) := merge_chains_loop (length chain1 + length chain2) chain1 chain2.

(** *** ChunkMerger, mod.rs:491-561 *)
(* mod.rs:518-521; each round consumes a chunk of one of the inputs *)
Fixpoint cm_loop (fuel : nat) (in1 in2 staged settled : list C) : option (list C * list C * list C * list C) :=
  if negb (is_nil in1) && negb (is_nil in2) then
    match fuel with
    | 0 => None
    | S fuel =>
        ' (in1, in2, out) <- ch_merge ops in1 in2;
        ' (staged, out) <- ch_settle ops (staged ++ out) false;
        cm_loop fuel in1 in2 staged (settled ++ out)
    end
  else Some (in1, in2, staged, settled).
(* mod.rs:523-526 *)
Fixpoint cm_tail (tail staged settled : list C) : option (list C * list C) :=
  match tail with
  | [] => Some (staged, settled)
  | c :: tail =>
      ' (staged, out) <- ch_settle ops (staged ++ [c]) false;
      cm_tail tail staged (settled ++ out)
  end.
(* mod.rs:507-529 *)
Definition cm_merge (list1 list2 : list C) : option (list C) :=
  ' (in1, in2, staged, settled) <- cm_loop (length list1 + length list2) list1 list2 [] [];
  ' (staged, settled) <- cm_tail (in1 ++ in2) staged settled;
  ' (_, out) <- ch_settle ops staged true;
  Some (settled ++ out).
(* mod.rs:549-553; each round consumes a chunk *)
Fixpoint cm_extract_loop (fuel : nat) (input : list C) (upper frontier : list T) (keep kept ship shipped : list C)
  : option (list T * list C * list C * list C * list C) :=
  match input with
  | [] => Some (frontier, keep, kept, ship, shipped)
  | _ =>
      match fuel with
      | 0 => None
      | S fuel =>
          ' (input, frontier, k, s) <- ch_extract ops input upper frontier;
          ' (keep, k) <- ch_settle ops (keep ++ k) false;
          ' (ship, s) <- ch_settle ops (ship ++ s) false;
          cm_extract_loop fuel input upper frontier keep (kept ++ k) ship (shipped ++ s)
      end
  end.
(* mod.rs:531-558: the frontier, which the caller has cleared, what is ready, and what is kept *)
Definition cm_extract (merged : list C) (upper : list T) : option (list T * list C * list C) :=
  ' (frontier, keep, kept, ship, shipped) <- cm_extract_loop (length merged) merged upper [] [] [] [] [];
  ' (_, k) <- ch_settle ops keep true;
  ' (_, s) <- ch_settle ops ship true;
  Some (frontier, shipped ++ s, kept ++ k).

(** *** ChunkBatch, mod.rs:241-282 *)
Record ChunkBatch := { cb_chunks : list C; cb_desc : Description T }.
(* mod.rs:250-255, which asserts that the chunks are not empty *)
Definition cb_new (chunks : list C) (d : Description T) : option ChunkBatch :=
  if forallb (fun c => 0 <? ch_len ops c) chunks then Some {| cb_chunks := chunks; cb_desc := d |} else None.
(* mod.rs:267 *)
Definition cb_len (b : ChunkBatch) : nat := total_len (cb_chunks b).
(* mod.rs:277-281 *)
Definition cb_empty (lower upper : list T) : option ChunkBatch := d <- desc_new lower upper [tmin]; cb_new [] d.

(** *** ChunkBatchMerger, mod.rs:570-668 *)
Record ChunkBatchMerger := {
  cbm_frontier : list T; cbm_lower : list T; cbm_upper : list T;
  cbm_in1 : list C; cbm_in2 : list C; cbm_idx1 : nat; cbm_idx2 : nat;
  cbm_merged : list C; cbm_advanced : list C; cbm_settled : list C; cbm_complete : bool
}.
(* mod.rs:599-615 *)
Definition cbm_new (source1 source2 : ChunkBatch) (frontier : list T) : option ChunkBatchMerger :=
  Some {| cbm_frontier := frontier;
          cbm_lower := antichain_meet (d_lower (cb_desc source1)) (d_lower (cb_desc source2));
          cbm_upper := antichain_join (d_upper (cb_desc source1)) (d_upper (cb_desc source2));
          cbm_in1 := []; cbm_in2 := []; cbm_idx1 := 0; cbm_idx2 := 0; cbm_merged := []; cbm_advanced := []; cbm_settled := []; cbm_complete := false |}.
Definition burst : nat := 8.
(* mod.rs:626-634: clones of the next chunks of the source, until there are [burst] *)
Definition cbm_refill (input : list C) (idx : nat) (chunks : list C) : list C * nat :=
  let more := firstn (burst - length input) (skipn idx chunks) in (input ++ more, idx + length more).
(* mod.rs:623-660, the loop; also what is left of the fuel.  Each round consumes a chunk of a source, but
   for the last; [rounds] bounds their number *)
Fixpoint cbm_loop (rounds : nat) (m : ChunkBatchMerger) (chunks1 chunks2 : list C) (fuel : Z) : option (ChunkBatchMerger * Z) :=
  if (0 <? fuel)%Z then
    match rounds with
    | 0 => None
    | S rounds =>
        let (in1, idx1) := cbm_refill (cbm_in1 m) (cbm_idx1 m) chunks1 in
        let (in2, idx2) := cbm_refill (cbm_in2 m) (cbm_idx2 m) chunks2 in
        ' next <-
          (if negb (is_nil in1) && negb (is_nil in2) then ' (in1, in2, out) <- ch_merge ops in1 in2; Some (Some (in1, in2, out))
           else match in1, in2 with
                | c :: in1, _ => Some (Some (in1, in2, [c]))
                | [], c :: in2 => Some (Some (in1, in2, [c]))
                | [], [] => Some None
                end);
        match next with
        | None =>
            ' (merged, out) <- ch_advance ops (cbm_merged m) (cbm_frontier m) true;
            ' (advanced, out) <- ch_settle ops (cbm_advanced m ++ out) true;
            Some ({| cbm_frontier := cbm_frontier m; cbm_lower := cbm_lower m; cbm_upper := cbm_upper m; cbm_in1 := in1; cbm_in2 := in2;
                     cbm_idx1 := idx1; cbm_idx2 := idx2; cbm_merged := merged; cbm_advanced := advanced; cbm_settled := cbm_settled m ++ out; cbm_complete := true |}, fuel)
        | Some (in1, in2, produced) =>
            ' (merged, out) <- ch_advance ops (cbm_merged m ++ produced) (cbm_frontier m) false;
            ' (advanced, out) <- ch_settle ops (cbm_advanced m ++ out) false;
            cbm_loop rounds {| cbm_frontier := cbm_frontier m; cbm_lower := cbm_lower m; cbm_upper := cbm_upper m; cbm_in1 := in1; cbm_in2 := in2;
                     cbm_idx1 := idx1; cbm_idx2 := idx2; cbm_merged := merged; cbm_advanced := advanced; cbm_settled := cbm_settled m ++ out; cbm_complete := false |}
                     chunks1 chunks2 (fuel - Z.of_nat (total_len produced))%Z
        end
    end
  else Some (m, fuel).
(* mod.rs:617-661 *)
Definition cbm_work (m : ChunkBatchMerger) (source1 source2 : ChunkBatch) (fuel : Z) : option (ChunkBatchMerger * Z) :=
  if cbm_complete m then Some (m, fuel)
  else cbm_loop (S (length (cb_chunks source1) + length (cb_chunks source2))) m (cb_chunks source1) (cb_chunks source2) fuel.
(* mod.rs:663-667 *)
Definition cbm_done (m : ChunkBatchMerger) : option ChunkBatch :=
  d <- desc_new (cbm_lower m) (cbm_upper m) (cbm_frontier m); cb_new (cbm_settled m) d.

(** *** ChunkBatchBuilder, mod.rs:671-710: the chunks awaiting settling, and those settled *)
Definition cbb_push (b : list C * list C) (chunk : C) : option (list C * list C) :=
  if 0 <? ch_len ops chunk then ' (input, out) <- ch_settle ops (fst b ++ [chunk]) false; Some (input, snd b ++ out) else Some b.
Definition cbb_done (b : list C * list C) (d : Description T) : option ChunkBatch :=
  ' (_, out) <- ch_settle ops (fst b) true; cb_new (snd b ++ out) d.
(* mod.rs:705-709 *)
Definition cbb_seal (chain : list C) (d : Description T) : option ChunkBatch := chunks <- settle_all chain; cb_new chunks d.
End Harness.
Arguments ChunkBatch : clear implicits.
Arguments ChunkBatchMerger : clear implicits.
