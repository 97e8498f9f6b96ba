(** * Model of differential-dataflow/src/columnar: updates.rs, trie_merger.rs and trace/chunk.rs
    [None] is a panic, or a loop that does not end within the bound given, which the theorems exclude.
    The containers of the [columnar] crate are modelled by what they hold: a container of items is a list,
    and a [Vecs] with [Strides] (the type [Lists], updates.rs:18) is the list of the ends of its lists and
    the list of all their items, one list after the other.  References to items are the items.
    Capacities, sharing ([Rc]) and recycled buffers are not modelled. *)
From Verif Require Export Base.Difference Model.LatticeM Model.ContainerM Model.ConsolidationM Model.ChunkM Model.CursorM.

(** ** Lists of lists *)
Section Lists.
Context {X : Type}.
Record Lists := { ls_bounds : list nat; ls_values : list X }.
Definition ls_new : Lists := {| ls_bounds := []; ls_values := [] |}.
(* the crate's [bounds.bounds(i)], and updates.rs:361-366 child_range *)
Definition child_range (bounds : list nat) (i : nat) : option (nat * nat) :=
  upper <- get bounds i;
  lower <- (match i with 0 => Some 0 | S j => get bounds j end);
  Some (lower, upper).
(* a range of a container *)
Definition slice (l : list X) (lower upper : nat) : option (list X) :=
  if (lower <=? upper) && (upper <=? length l) then Some (firstn (upper - lower) (skipn lower l)) else None.
(* the bounds that a range of lists has after [shift] items, if [lower] items precede it *)
Fixpoint shift_bounds (bounds : list nat) (lower shift : nat) : option (list nat) :=
  match bounds with
  | [] => Some []
  | b :: bounds => if lower <=? b then bs <- shift_bounds bounds lower shift; Some (shift + (b - lower) :: bs) else None
  end.
End Lists.
Arguments Lists X : clear implicits.
Section ListsOps.
Context {X : Type}.
Implicit Types (l out : Lists X).
(* the crate's [extend_from_self] for [Vecs], which copies the lists of a range *)
Definition extend_lists out l (lower upper : nat) : option (Lists X) :=
  if lower <? upper then
    ' (first, _) <- child_range (ls_bounds l) lower;
    last <- get (ls_bounds l) (upper - 1);
    vs <- slice (ls_values l) first last;
    bs <- slice (ls_bounds l) lower upper;
    bs <- shift_bounds bs first (length (ls_values out));
    Some {| ls_bounds := ls_bounds out ++ bs; ls_values := ls_values out ++ vs |}
  else Some out.
(* [bounds.push(values.len())] *)
Definition seal_list out : Lists X := {| ls_bounds := ls_bounds out ++ [length (ls_values out)]; ls_values := ls_values out |}.
(* [bounds.pop()] *)
Definition open_list l : Lists X := {| ls_bounds := removelast (ls_bounds l); ls_values := ls_values l |}.
(* [values.push(x)], and [values.extend_from_self(..)] *)
Definition push_value out (x : X) : Lists X := {| ls_bounds := ls_bounds out; ls_values := ls_values out ++ [x] |}.
Definition push_values out (vs : list X) : Lists X := {| ls_bounds := ls_bounds out; ls_values := ls_values out ++ vs |}.

(* updates.rs:21-44 retain_items; the loop over the lists *)
Fixpoint retain_loop l (keep : list bool) (indices : list nat) out (bitmap : list bool) : option (Lists X * list bool) :=
  match indices with
  | [] => Some (out, bitmap)
  | i :: indices =>
      ' (lower, upper) <- child_range (ls_bounds l) i;
      vs <- slice (ls_values l) lower upper;
      ks <- slice keep lower upper;
      let out := push_values out (map fst (filter snd (List.combine vs ks))) in
      if last (ls_bounds out) 0 <? length (ls_values out) then retain_loop l keep indices (seal_list out) (bitmap ++ [true])
      else retain_loop l keep indices out (bitmap ++ [false])
  end.
Definition retain_items l (keep : list bool) : option (Lists X * list bool) :=
  if length keep =? length (ls_values l) then
    ' (out, bitmap) <- retain_loop l keep (seq 0 (length (ls_bounds l))) ls_new [];
    if length bitmap =? length (ls_bounds l) then Some (out, bitmap) else None
  else None.
End ListsOps.

(** ** Surveys, trie_merger.rs *)
(* trie_merger.rs:425-436 *)
Inductive Report := This (lower upper : nat) | That (lower upper : nat) | Both (index0 index1 : nat).

(* trie_merger.rs:395-417 gallop.  The two loops are those of BatchContainer::advance *)
Definition gallop {X} (pred : X -> bool) (l : list X) (lower upper : nat) : option nat :=
  if lower <? upper then
    x <- get l lower;
    if pred x then
      ' (pos, step) <- gallop_grow pred (S upper) l 0 upper lower 1;
      pos <- gallop_shrink pred step l 0 upper pos (step / 2);
      Some (pos + 1)
    else Some lower
  else Some lower.

Section Survey.
Context {X : Type} {OX : Ord X}.
(* trie_merger.rs:280-305, the interleaving of two lists; each round consumes an item *)
Fixpoint survey_both (fuel : nat) (l0 l1 : Lists X) (lower0 upper0 lower1 upper1 : nat) : option (list Report) :=
  if (lower0 <? upper0) && (lower1 <? upper1) then
    match fuel with
    | 0 => None
    | S fuel =>
        val0 <- get (ls_values l0) lower0;
        val1 <- get (ls_values l1) lower1;
        match cmp val0 val1 with
        | Lt => next <- gallop (fun x => ltb x val1) (ls_values l0) (lower0 + 1) upper0;
                rest <- survey_both fuel l0 l1 next upper0 lower1 upper1;
                Some (This lower0 next :: rest)
        | Eq => rest <- survey_both fuel l0 l1 (lower0 + 1) upper0 (lower1 + 1) upper1;
                Some (Both lower0 lower1 :: rest)
        | Gt => next <- gallop (fun x => ltb x val0) (ls_values l1) (lower1 + 1) upper1;
                rest <- survey_both fuel l0 l1 lower0 upper0 next upper1;
                Some (That lower1 next :: rest)
        end
    end
  else Some ((if lower0 <? upper0 then [This lower0 upper0] else []) ++ (if lower1 <? upper1 then [That lower1 upper1] else [])).
(* trie_merger.rs:261-317; [*upper0-1] panics at zero *)
Definition survey_range (l : Lists X) (lower upper : nat) : option (nat * nat) :=
  ' (new_lower, _) <- child_range (ls_bounds l) lower;
  ' (_, new_upper) <- (match upper with 0 => None | S u => child_range (ls_bounds l) u end);
  Some (new_lower, new_upper).
Definition survey_one (l0 l1 : Lists X) (report : Report) : option (list Report) :=
  match report with
  | This lower0 upper0 => ' (a, b) <- survey_range l0 lower0 upper0; Some [This a b]
  | Both index0 index1 =>
      ' (lower0, upper0) <- child_range (ls_bounds l0) index0;
      ' (lower1, upper1) <- child_range (ls_bounds l1) index1;
      survey_both (upper0 + upper1) l0 l1 lower0 upper0 lower1 upper1
  | That lower1 upper1 => ' (a, b) <- survey_range l1 lower1 upper1; Some [That a b]
  end.
Fixpoint survey (l0 l1 : Lists X) (reports : list Report) : option (list Report) :=
  match reports with
  | [] => Some []
  | report :: reports => a <- survey_one l0 l1 report; b <- survey l0 l1 reports; Some (a ++ b)
  end.

(* trie_merger.rs:341-353, and 355-367: the lists [lower .. upper], of which the items [item_lo .. item_hi] are taken *)
Fixpoint clamp_bounds (bounds : list nat) (indices : list nat) (base item_lo item_hi : nat) : option (list nat) :=
  match indices with
  | [] => Some []
  | i :: indices =>
      ' (_, nat_hi) <- child_range bounds i;
      bs <- clamp_bounds bounds indices base item_lo item_hi;
      if item_lo <=? base + Nat.min nat_hi item_hi then Some (base + Nat.min nat_hi item_hi - item_lo :: bs) else None
  end.
Definition write_range (l : Lists X) (pruned : bool) (lower upper item_lo item_hi : nat) (out : Lists X) : option (Lists X) :=
  if pruned then
    vs <- slice (ls_values l) item_lo item_hi;
    bs <- clamp_bounds (ls_bounds l) (seq lower (upper - lower)) (length (ls_values out)) item_lo item_hi;
    Some {| ls_bounds := ls_bounds out ++ bs; ls_values := ls_values out ++ vs |}
  else extend_lists out l lower upper.
(* trie_merger.rs:372-392: the item survey left, and the output *)
Fixpoint write_both (l0 l1 : Lists X) (c0 end0 c1 end1 : nat) (items : list Report) (out : Lists X) : option (list Report * Lists X) :=
  match items with
  | [] => Some ([], out)
  | item :: items' =>
      if (c0 <? end0) || (c1 <? end1) then
        match item with
        | This lo hi =>
            if end0 <=? lo then Some (items, out)
            else vs <- slice (ls_values l0) lo hi; write_both l0 l1 hi end0 c1 end1 items' (push_values out vs)
        | That lo hi =>
            if end1 <=? lo then Some (items, out)
            else vs <- slice (ls_values l1) lo hi; write_both l0 l1 c0 end0 hi end1 items' (push_values out vs)
        | Both v0 v1 =>
            if (end0 <=? v0) && (end1 <=? v1) then Some (items, out)
            else v <- get (ls_values l0) v0; write_both l0 l1 (v0 + 1) end0 (v1 + 1) end1 items' (push_value out v)
        end
      else Some (items, out)
  end.
(* trie_merger.rs:328-396; [first] holds before the first report *)
Fixpoint write_layer_from (first : bool) (l0 l1 : Lists X) (lists items : list Report) (out : Lists X) : option (Lists X) :=
  match lists with
  | [] => Some out
  | report :: lists =>
      let pruned := first || is_nil lists in
      match report with
      | This lo hi =>
          match items with
          | This item_lo item_hi :: items => out <- write_range l0 pruned lo hi item_lo item_hi out; write_layer_from false l0 l1 lists items out
          | _ => None
          end
      | That lo hi =>
          match items with
          | That item_lo item_hi :: items => out <- write_range l1 pruned lo hi item_lo item_hi out; write_layer_from false l0 l1 lists items out
          | _ => None
          end
      | Both i0 i1 =>
          ' (c0, end0) <- child_range (ls_bounds l0) i0;
          ' (c1, end1) <- child_range (ls_bounds l1) i1;
          ' (items, out) <- write_both l0 l1 c0 end0 c1 end1 items out;
          write_layer_from false l0 l1 lists items (seal_list out)
      end
  end.
Definition write_layer := write_layer_from true.
End Survey.

(** ** The trie, updates.rs *)
Section Trie.
Context {K V T R : Type} {OK : Ord K} {OV : Ord V} {TT : Time T} {DR : Diff R}.
Local Notation U := (K * V * T * R)%type.
(* updates.rs:58-68 *)
Record Updates := { u_keys : Lists K; u_vals : Lists V; u_times : Lists T; u_diffs : Lists R }.
Definition updates_new : Updates := {| u_keys := ls_new; u_vals := ls_new; u_times := ls_new; u_diffs := ls_new |}.
Implicit Types (u : Updates).
(* updates.rs:525 *)
Definition updates_len u : nat := length (ls_values (u_diffs u)).

(* updates.rs:168-222: the iterator.  Each round of a loop reads a bound further on *)
Fixpoint next_key (fuel : nat) u (k v v_end : nat) : option (nat * nat) :=
  if v_end <=? v then
    match fuel with
    | 0 => None
    | S fuel => v_end <- get (ls_bounds (u_vals u)) (k + 1); next_key fuel u (k + 1) v v_end
    end
  else Some (k, v_end).
Fixpoint next_val (fuel : nat) u (k v t v_end t_end : nat) : option (nat * nat * nat * nat) :=
  if t_end <=? t then
    match fuel with
    | 0 => None
    | S fuel =>
        ' (k, v_end) <- next_key (length (ls_bounds (u_vals u))) u k (v + 1) v_end;
        t_end <- get (ls_bounds (u_times u)) (v + 1);
        next_val fuel u k (v + 1) t v_end t_end
    end
  else Some (k, v, v_end, t_end).
Fixpoint next_time (fuel : nat) u (k v t d v_end t_end d_end : nat) : option (nat * nat * nat * nat * nat * nat) :=
  if d_end <=? d then
    match fuel with
    | 0 => None
    | S fuel =>
        ' (k, v, v_end, t_end) <- next_val (length (ls_bounds (u_times u))) u k v (t + 1) v_end t_end;
        d_end <- get (ls_bounds (u_diffs u)) (t + 1);
        next_time fuel u k v (t + 1) d v_end t_end d_end
    end
  else Some (k, v, t, v_end, t_end, d_end).
Fixpoint iter_from (leaves : nat) u (k v t d v_end t_end d_end : nat) : option (list U) :=
  match leaves with
  | 0 => Some []
  | S leaves =>
      ' (k, v, t, v_end, t_end, d_end) <- next_time (length (ls_bounds (u_diffs u))) u k v t d v_end t_end d_end;
      key <- get (ls_values (u_keys u)) k;
      val <- get (ls_values (u_vals u)) v;
      time <- get (ls_values (u_times u)) t;
      diff <- get (ls_values (u_diffs u)) d;
      rest <- iter_from leaves u k v t (d + 1) v_end t_end d_end;
      Some ((key, val, time, diff) :: rest)
  end.
(* updates.rs:119-133: all that the iterator gives *)
Definition updates_iter u : option (list U) :=
  let leaves := updates_len u in
  if 0 <? leaves then
    v_end <- get (ls_bounds (u_vals u)) 0;
    t_end <- get (ls_bounds (u_times u)) 0;
    d_end <- get (ls_bounds (u_diffs u)) 0;
    iter_from leaves u 0 0 0 0 v_end t_end d_end
  else Some [].

(* updates.rs:373-419 Consolidating: all that the iterator gives; [x] and [diff] are the run under way *)
Fixpoint consolidating_run (x : K * V * T) (diff : R) (l : list U) : list U :=
  match l with
  | [] => if negb (is_zero diff) then [(x, diff)] else []
  | (x2, d2) :: l =>
      if eqb (fst (fst x2)) (fst (fst x)) && eqb (snd (fst x2)) (snd (fst x)) && eqb (snd x2) (snd x)
      then consolidating_run x (dplus diff d2) l
      else (if negb (is_zero diff) then [(x, diff)] else []) ++ consolidating_run x2 d2 l
  end.
Definition consolidating (l : list U) : list U := match l with [] => [] | (x, d) :: l => consolidating_run x d l end.
(* updates.rs:464-490, the loop *)
Fixpoint form_loop (prev : K * V * T) (l : list U) u : option Updates :=
  match l with
  | [] => Some u
  | (key, val, time, diff) :: l =>
      let '(pk, pv, pt) := prev in
      u <- (if negb (eqb key pk) then
              Some {| u_keys := push_value (u_keys u) key; u_vals := push_value (seal_list (u_vals u)) val;
                      u_times := seal_list (u_times u); u_diffs := u_diffs u |}
            else if negb (eqb val pv) then
              Some {| u_keys := u_keys u; u_vals := push_value (u_vals u) val; u_times := seal_list (u_times u); u_diffs := u_diffs u |}
            else if negb (eqb time pt) then Some u else None);
      form_loop (key, val, time) l
        {| u_keys := u_keys u; u_vals := u_vals u; u_times := push_value (u_times u) time; u_diffs := seal_list (push_value (u_diffs u) diff) |}
  end.
(* updates.rs:443-501 *)
Definition form (sorted : list U) : option Updates :=
  match consolidating sorted with
  | [] => Some updates_new
  | (key, val, time, diff) :: l =>
      u <- form_loop (key, val, time) l
             {| u_keys := push_value ls_new key; u_vals := push_value ls_new val; u_times := push_value ls_new time;
                u_diffs := seal_list (push_value ls_new diff) |};
      Some {| u_keys := seal_list (u_keys u); u_vals := seal_list (u_vals u); u_times := seal_list (u_times u); u_diffs := u_diffs u |}
  end.
(* updates.rs:435-441; [srt] is [sort_unstable] *)
Definition form_unsorted (srt : list U -> list U) (unsorted : list U) : option Updates := form (srt unsorted).
(* updates.rs:506 *)
Definition updates_consolidate (srt : list U -> list U) u : option Updates := l <- updates_iter u; form_unsorted srt l.
(* updates.rs:532-551 push *)
Definition updates_push u (x : U) : Updates :=
  let '(key, val, time, diff) := x in
  {| u_keys := seal_list (push_value (u_keys u) key); u_vals := seal_list (push_value (u_vals u) val);
     u_times := seal_list (push_value (u_times u) time); u_diffs := seal_list (push_value (u_diffs u) diff) |}.

(* trie_merger.rs:57-68, 72-86, and 455-466, 470-480: the updates whose bit is set *)
Definition retain u (bitmap : list bool) : option Updates :=
  ' (times, temp) <- retain_items (u_times u) bitmap;
  ' (vals, temp) <- retain_items (u_vals u) temp;
  ' (keys, _) <- retain_items (u_keys u) temp;
  diffs <- slice (ls_values (u_diffs u)) 0 (length bitmap);
  Some {| u_keys := keys; u_vals := vals; u_times := times;
          u_diffs := {| ls_bounds := seq 1 (length (ls_values times)); ls_values := map fst (filter snd (List.combine diffs bitmap)) |} |}.
(* updates.rs:508-533 filter_zero; [strided() == Some(1)] says that the bounds are [1, 2, ..] *)
Definition strided_one (bounds : list nat) : bool := forallb (fun x => fst x =? snd x) (List.combine bounds (seq 1 (length bounds))).
Fixpoint nonempty_lists (bounds : list nat) (indices : list nat) : option (list bool) :=
  match indices with
  | [] => Some []
  | i :: indices => ' (lower, upper) <- child_range bounds i; rest <- nonempty_lists bounds indices; Some ((lower <? upper) :: rest)
  end.
Definition filter_zero u : option Updates :=
  if strided_one (ls_bounds (u_diffs u)) then Some u
  else
    keep <- nonempty_lists (ls_bounds (u_diffs u)) (seq 0 (length (ls_values (u_times u))));
    ' (times, keep) <- retain_items (u_times u) keep;
    ' (vals, keep) <- retain_items (u_vals u) keep;
    ' (keys, _) <- retain_items (u_keys u) keep;
    Some {| u_keys := keys; u_vals := vals; u_times := times;
            u_diffs := {| ls_bounds := seq 1 (length (ls_values (u_diffs u))); ls_values := ls_values (u_diffs u) |} |}.

(** ** UpdatesBuilder, updates.rs:597-740: the builder is its open trie *)
Definition unseal u : Updates :=
  {| u_keys := open_list (u_keys u); u_vals := open_list (u_vals u); u_times := open_list (u_times u); u_diffs := u_diffs u |}.
(* updates.rs:608-616 *)
Definition builder_from u : Updates := if 0 <? length (ls_values (u_keys u)) then unseal u else u.
(* seal the open list, copy the lists from [lower] on, and open the last one *)
Definition meld_lists {X} (l chunk : Lists X) (lower upper : nat) : option (Lists X) :=
  l <- extend_lists (seal_list l) chunk lower upper; Some (open_list l).
(* the last item of the builder is the first one of the chunk *)
Definition meets {X} {OX : Ord X} (l chunk : Lists X) : option bool :=
  a <- (match length (ls_values l) with 0 => None | S n => get (ls_values l) n end);
  b <- get (ls_values chunk) 0;
  Some (eqb a b).
(* updates.rs:624-735.  The [debug_assert]s are checked *)
Definition meld u chunk : option Updates :=
  if updates_len chunk =? 0 then Some u
  else if length (ls_values (u_keys u)) =? 0 then Some (unseal chunk)
  else
    keys_match <- meets (u_keys u) (u_keys chunk);
    vals_match <- (if (keys_match : bool) then meets (u_vals u) (u_vals chunk) else Some false);
    let chunk_num_keys := length (ls_values (u_keys chunk)) in
    let chunk_num_vals := length (ls_values (u_vals chunk)) in
    let chunk_num_times := length (ls_values (u_times chunk)) in
    ' (key_vals_start, key_vals_end) <- child_range (ls_bounds (u_vals chunk)) 0;
    ' (val_times_start, val_times_end) <- child_range (ls_bounds (u_times chunk)) 0;
    keys <- slice (ls_values (u_keys chunk)) (if (keys_match : bool) then 1 else 0) chunk_num_keys;
    let keys := push_values (u_keys u) keys in
    vals <- (if negb keys_match then meld_lists (u_vals u) (u_vals chunk) 0 chunk_num_keys
             else
               first <- slice (ls_values (u_vals chunk)) (if (vals_match : bool) then key_vals_start + 1 else key_vals_start) key_vals_end;
               let vals := push_values (u_vals u) first in
               if 1 <? chunk_num_keys then meld_lists vals (u_vals chunk) 1 chunk_num_keys else Some vals);
    times <- (if negb vals_match then meld_lists (u_times u) (u_times chunk) 0 chunk_num_vals
              else
                same <- meets (u_times u) (u_times chunk);
                if (same : bool) then None
                else
                  first <- slice (ls_values (u_times chunk)) val_times_start val_times_end;
                  let times := push_values (u_times u) first in
                  if 1 <? chunk_num_vals then meld_lists times (u_times chunk) 1 chunk_num_vals else Some times);
    diffs <- extend_lists (u_diffs u) (u_diffs chunk) 0 chunk_num_times;
    Some {| u_keys := keys; u_vals := vals; u_times := times; u_diffs := diffs |}.
(* updates.rs:738-750 *)
Definition builder_done u : Updates :=
  if 0 <? length (ls_values (u_keys u)) then
    {| u_keys := seal_list (u_keys u); u_vals := seal_list (u_vals u); u_times := seal_list (u_times u); u_diffs := u_diffs u |}
  else u.
(* chunk.rs:411-413, 454-456 *)
Definition meld_pair u chunk : option Updates := b <- meld (builder_from u) chunk; Some (builder_done b).

(** ** Merging, trie_merger.rs *)
(* trie_merger.rs:412-448 write_diffs *)
Fixpoint write_diffs (d0 d1 : Lists R) (times : list Report) (out : Lists R) : option (Lists R) :=
  match times with
  | [] => Some out
  | This lo hi :: times => out <- extend_lists out d0 lo hi; write_diffs d0 d1 times out
  | That lo hi :: times => out <- extend_lists out d1 lo hi; write_diffs d0 d1 times out
  | Both t0 t1 :: times =>
      ' (d0_lo, d0_hi) <- child_range (ls_bounds d0) t0;
      ' (d1_lo, d1_hi) <- child_range (ls_bounds d1) t1;
      if (d0_hi - d0_lo =? 1) && (d1_hi - d1_lo =? 1) then
        a <- get (ls_values d0) d0_lo;
        b <- get (ls_values d1) d1_lo;
        let diff := dplus a b in
        write_diffs d0 d1 times (seal_list (if negb (is_zero diff) then push_value out diff else out))
      else None
  end.
(* trie_merger.rs:231-246 *)
Definition write_from_surveys (u0 u1 : Updates) (root keys vals times : list Report) : option Updates :=
  ks <- write_layer (u_keys u0) (u_keys u1) root keys ls_new;
  vs <- write_layer (u_vals u0) (u_vals u1) keys vals ls_new;
  ts <- write_layer (u_times u0) (u_times u1) vals times ls_new;
  ds <- write_diffs (u_diffs u0) (u_diffs u1) times ls_new;
  Some {| u_keys := ks; u_vals := vs; u_times := ts; u_diffs := ds |}.
(* trie_merger.rs:101-120 *)
Definition suffix_chunk (cursor : nat * nat * nat) (batch : Updates) : option Updates :=
  let '(k, v, t) := cursor in
  write_from_surveys batch updates_new [This 0 1] [This k (length (ls_values (u_keys batch)))]
    [This v (length (ls_values (u_vals batch)))] [This t (length (ls_values (u_times batch)))].

(* trie_merger.rs:171-175, 177-181: the reports at the front of a survey that precede a cursor; an empty
   survey panics *)
Fixpoint nudge (this : bool) (cursor : nat) (reports : list Report) : option (list Report) :=
  match reports with
  | [] => None
  | This l u :: rest => if this then (if u <=? cursor then nudge this cursor rest else Some (This cursor u :: rest)) else Some reports
  | That l u :: rest => if this then Some reports else (if u <=? cursor then nudge this cursor rest else Some (That cursor u :: rest))
  | Both _ _ :: _ => Some reports
  end.
Definition nudge_all (this : bool) (cursor : nat * nat * nat) (surveys : list Report * list Report * list Report)
    : option (list Report * list Report * list Report) :=
  let '(k, v, t) := cursor in
  let '(ks, vs, ts) := surveys in
  if (k =? 0) && (v =? 0) && (t =? 0) then Some surveys
  else ks <- nudge this k ks; vs <- nudge this v vs; ts <- nudge this t ts; Some (ks, vs, ts).
(* trie_merger.rs:195-200, 209-214: the reports at the end of a survey that are of one input only, and the
   least index of them, or [index] if there are none; the survey is given reversed *)
Fixpoint trim_this (reports : list Report) (index : nat) : list Report * nat :=
  match reports with This l _ :: rest => trim_this rest l | _ => (reports, index) end.
Fixpoint trim_that (reports : list Report) (index : nat) : list Report * nat :=
  match reports with That l _ :: rest => trim_that rest l | _ => (reports, index) end.
(* trie_merger.rs:202-203, 216-217: the parent of an item, if [index] is not yet it *)
Definition nudge_down (bounds : list nat) (index child : nat) : option nat :=
  down <- (if index =? length bounds then Some true else ' (lower, _) <- child_range bounds index; Some (child <? lower));
  if (down : bool) then (match index with 0 => None | S i => Some i end) else Some index.
Definition trim (this : bool) u (ks vs ts : list Report) : option (list Report * list Report * list Report * (nat * nat * nat)) :=
  let trimmed := if this then trim_this else trim_that in
  let (ts, t) := trimmed (rev ts) (length (ls_values (u_times u))) in
  let (vs, v) := trimmed (rev vs) (length (ls_values (u_vals u))) in
  let (ks, k) := trimmed (rev ks) (length (ls_values (u_keys u))) in
  v <- nudge_down (ls_bounds (u_times u)) v t;
  k <- nudge_down (ls_bounds (u_vals u)) k v;
  Some (rev ks, rev vs, rev ts, (k, v, t)).
(* trie_merger.rs:130-226: the output, and the cursors of the inputs that are not consumed *)
Definition merge_pair (b1 b2 : (nat * nat * nat) * Updates) : option (Updates * option ((nat * nat * nat) * Updates) * option ((nat * nat * nat) * Updates)) :=
  let (cursor0, u0) := b1 in
  let (cursor1, u1) := b2 in
  ks <- survey (u_keys u0) (u_keys u1) [Both 0 0];
  vs <- survey (u_vals u0) (u_vals u1) ks;
  ts <- survey (u_times u0) (u_times u1) vs;
  ' (ks, vs, ts) <- nudge_all true cursor0 (ks, vs, ts);
  ' (ks, vs, ts) <- nudge_all false cursor1 (ks, vs, ts);
  match rev ts with
  | [] => None
  | This _ _ :: _ =>
      ' (ks, vs, ts, cursor) <- trim true u0 ks vs ts;
      out <- write_from_surveys u0 u1 [Both 0 0] ks vs ts;
      Some (out, Some (cursor, u0), None)
  | Both _ _ :: _ =>
      out <- write_from_surveys u0 u1 [Both 0 0] ks vs ts;
      Some (out, None, None)
  | That _ _ :: _ =>
      ' (ks, vs, ts, cursor) <- trim false u1 ks vs ts;
      out <- write_from_surveys u0 u1 [Both 0 0] ks vs ts;
      Some (out, None, Some (cursor, u1))
  end.
(* trie_merger.rs:23-93 extract, for one chunk: the frontier, what is kept, and what is shipped *)
Definition extract_one u (upper frontier : list T) : option (list T * list Updates * list Updates) :=
  let '(frontier, bitmap) :=
    fold_left (fun x time => if ac_less_equal upper time then (ac_insert (fst x) time, snd x ++ [true]) else (fst x, snd x ++ [false]))
              (ls_values (u_times u)) (frontier, []) in
  if forallb (fun x => x) bitmap then Some (frontier, [u], [])
  else if forallb negb bitmap then Some (frontier, [], [u])
  else
    kept <- retain u bitmap;
    shipped <- retain u (map negb bitmap);
    Some (frontier, [kept], [shipped]).
(* trie_merger.rs:441-485 *)
Definition split_at u (n : nat) : option (Updates * Updates) :=
  let total := updates_len u in
  if n =? 0 then Some (updates_new, u)
  else if total <=? n then Some (u, updates_new)
  else
    let bitmap := map (fun i => i <? n) (seq 0 total) in
    first <- retain u bitmap;
    second <- retain u (map negb bitmap);
    Some (first, second).

(** ** The chunk, trace/chunk.rs *)
(* chunk.rs:64-68 and 86-95 *)
Record ChunkMeta := { m_first : K * V * T; m_last : K * V * T; m_len : nat }.
Definition last_of {X} (l : list X) : option X := match length l with 0 => None | S n => get l n end.
Definition ends_of u : option ((K * V * T) * (K * V * T)) :=
  fk <- get (ls_values (u_keys u)) 0; lk <- last_of (ls_values (u_keys u));
  fv <- get (ls_values (u_vals u)) 0; lv <- last_of (ls_values (u_vals u));
  ft <- get (ls_values (u_times u)) 0; lt <- last_of (ls_values (u_times u));
  Some ((fk, fv, ft), (lk, lv, lt)).
Definition meta_of u : option ChunkMeta := ' (f, l) <- ends_of u; Some {| m_first := f; m_last := l; m_len := updates_len u |}.
(* chunk.rs:70-76, 99-104: what is paged out is read back as it was written ([spill::decode]); the bytes, and
   the cache of what was read, are not modelled *)
Inductive ColChunk := Resident (u : Updates) | Paged (meta : ChunkMeta) (u : Updates).
(* chunk.rs:125-133, 151-159 *)
Definition into_trie (c : ColChunk) : Updates := match c with Resident u => u | Paged _ u => u end.
(* chunk.rs:334-339 *)
Definition col_len (c : ColChunk) : nat := match c with Resident u => updates_len u | Paged m _ => m_len m end.
(* chunk.rs:306-325 *)
Definition col_bounds (c : ColChunk) : option ((K * V * T) * (K * V * T)) :=
  match c with Resident u => ends_of u | Paged m _ => Some (m_first m, m_last m) end.
(* chunk.rs:283-285 *)
Definition emit u : list ColChunk := if 0 <? updates_len u then [Resident u] else [].
(* chunk.rs:291-293 *)
Definition without_empty u : option Updates :=
  if length (ls_values (u_diffs u)) =? length (ls_values (u_times u)) then Some u else filter_zero u.
(* chunk.rs:356-359, 360-363 *)
Definition push_back_suffix (survivor : option ((nat * nat * nat) * Updates)) (input : list ColChunk) : option (list ColChunk) :=
  match survivor with
  | Some (cursor, batch) => suffix <- suffix_chunk cursor batch; Some (emit suffix ++ input)
  | None => Some input
  end.
(* chunk.rs:351-364 *)
Definition col_merge (in1 in2 : list ColChunk) : option (list ColChunk * list ColChunk * list ColChunk) :=
  match in1, in2 with
  | c1 :: in1, c2 :: in2 =>
      ' (merged, cursor1, cursor2) <- merge_pair ((0, 0, 0), into_trie c1) ((0, 0, 0), into_trie c2);
      out <- without_empty merged;
      in1 <- push_back_suffix cursor1 in1;
      in2 <- push_back_suffix cursor2 in2;
      Some (in1, in2, emit out)
  | _, _ => None
  end.
(* chunk.rs:368-383 *)
Definition col_extract (input : list ColChunk) (frontier residual : list T) : option (list ColChunk * list T * list ColChunk * list ColChunk) :=
  match input with
  | [] => Some ([], residual, [], [])
  | chunk :: input =>
      ' (residual, kept, shipped) <- extract_one (into_trie chunk) frontier residual;
      Some (input, residual, flat_map emit kept, flat_map emit shipped)
  end.

(* the loops [for i in lower .. upper] *)
Definition range (lower upper : nat) : list nat := seq lower (upper - lower).
(* chunk.rs:503-511: the advanced times of a value, and their differences; [rdefault] is [U::Diff::default()] *)
Fixpoint gather_diffs (diffs : list R) (indices : list nat) (diff : R) : option R :=
  match indices with [] => Some diff | i :: indices => d <- get diffs i; gather_diffs diffs indices (dplus diff d) end.
Fixpoint gather_times (rdefault : R) u (frontier : list T) (indices : list nat) : option (list (T * R)) :=
  match indices with
  | [] => Some []
  | i :: indices =>
      time <- get (ls_values (u_times u)) i;
      ' (lower, upper) <- child_range (ls_bounds (u_diffs u)) i;
      diff <- gather_diffs (ls_values (u_diffs u)) (range lower upper) rdefault;
      rest <- gather_times rdefault u frontier indices;
      Some ((advance_by time frontier, diff) :: rest)
  end.
(* chunk.rs:513, a stable sort *)
Fixpoint run_insert (x : T * R) (l : list (T * R)) : list (T * R) :=
  match l with [] => [x] | y :: l' => if leb (fst x) (fst y) then x :: l else y :: run_insert x l' end.
Definition run_sort (l : list (T * R)) : list (T * R) := fold_right run_insert [] l.
(* chunk.rs:514-522: the runs of equal times; what is written in place is returned *)
Fixpoint run_merge (t : T) (d : R) (l : list (T * R)) : list (T * R) :=
  match l with
  | [] => if negb (is_zero d) then [(t, d)] else []
  | (t2, d2) :: l => if eqb t2 t then run_merge t (dplus d d2) l else (if negb (is_zero d) then [(t, d)] else []) ++ run_merge t2 d2 l
  end.
Definition run_consolidate (l : list (T * R)) : list (T * R) := match run_sort l with [] => [] | (t, d) :: l => run_merge t d l end.
(* chunk.rs:500-537 *)
Fixpoint advance_vals (rdefault : R) u (frontier : list T) (key : K) (emitted : bool) (indices : list nat) (out : Updates) : option (bool * Updates) :=
  match indices with
  | [] => Some (emitted, out)
  | i :: indices =>
      ' (lower, upper) <- child_range (ls_bounds (u_times u)) i;
      run <- gather_times rdefault u frontier (range lower upper);
      match run_consolidate run with
      | [] => advance_vals rdefault u frontier key emitted indices out
      | run =>
          val <- get (ls_values (u_vals u)) i;
          let keys := if emitted then u_keys out else push_value (u_keys out) key in
          let times := seal_list (push_values (u_times out) (map fst run)) in
          let diffs := fold_left (fun l x => seal_list (push_value l (snd x))) run (u_diffs out) in
          advance_vals rdefault u frontier key true indices {| u_keys := keys; u_vals := push_value (u_vals out) val; u_times := times; u_diffs := diffs |}
      end
  end.
(* chunk.rs:498-543 *)
Fixpoint advance_keys (rdefault : R) u (frontier : list T) (any_key : bool) (indices : list nat) (out : Updates) : option Updates :=
  match indices with
  | [] => Some (if any_key then {| u_keys := seal_list (u_keys out); u_vals := u_vals out; u_times := u_times out; u_diffs := u_diffs out |} else out)
  | i :: indices =>
      ' (lower, upper) <- child_range (ls_bounds (u_vals u)) i;
      key <- get (ls_values (u_keys u)) i;
      ' (emitted, out) <- advance_vals rdefault u frontier key false (range lower upper) out;
      if (emitted : bool) then
        advance_keys rdefault u frontier true indices {| u_keys := u_keys out; u_vals := seal_list (u_vals out); u_times := u_times out; u_diffs := u_diffs out |}
      else advance_keys rdefault u frontier any_key indices out
  end.
(* chunk.rs:487-545 *)
Definition advance_trie (rdefault : R) u (frontier : list T) : option Updates :=
  advance_keys rdefault u frontier false (range 0 (length (ls_values (u_keys u)))) updates_new.
(* chunk.rs:420-426: the number of updates of the last value *)
Definition tail_len u : option nat :=
  ' (_, vals_end) <- (match length (ls_values (u_keys u)) with 0 => None | S n => child_range (ls_bounds (u_vals u)) n end);
  ' (times_start, times_end) <- (match vals_end with 0 => None | S n => child_range (ls_bounds (u_times u)) n end);
  ' (_, b) <- (match times_end with 0 => None | S n => child_range (ls_bounds (u_diffs u)) n end);
  ' (a, _) <- child_range (ls_bounds (u_diffs u)) times_start;
  if a <=? b then Some (b - a) else None.
(* chunk.rs:405-437: what is carried, and what is pushed to the output *)
Fixpoint col_advance_loop (rdefault : R) (frontier : list T) (input : list ColChunk) (carry : option Updates) : option (option Updates * list ColChunk) :=
  match input with
  | [] => Some (carry, [])
  | chunk :: input =>
      combined <- (match carry with None => Some (into_trie chunk) | Some c => meld_pair c (into_trie chunk) end);
      if updates_len combined =? 0 then col_advance_loop rdefault frontier input None
      else
        tail <- tail_len combined;
        if tail =? updates_len combined then col_advance_loop rdefault frontier input (Some combined)
        else
          if updates_len combined <? tail then None else
          ' (keep, rest) <- split_at combined (updates_len combined - tail);
          advanced <- advance_trie rdefault keep frontier;
          ' (carry, out) <- col_advance_loop rdefault frontier input (Some rest);
          Some (carry, emit advanced ++ out)
  end.
(* chunk.rs:396-443 *)
Definition col_advance (rdefault : R) (input : list ColChunk) (frontier : list T) (done : bool) : option (list ColChunk * list ColChunk) :=
  ' (carry, out) <- col_advance_loop rdefault frontier input None;
  match carry with
  | None => Some ([], out)
  | Some c => if done then advanced <- advance_trie rdefault c frontier; Some ([], out ++ emit advanced) else Some ([Resident c], out)
  end.
(* chunk.rs:470-479; [spiller] says which tries a spiller takes, if one is installed *)
Definition seal_chunk (spiller : option (Updates -> bool)) (c : ColChunk) : option ColChunk :=
  match c, spiller with
  | Resident u, Some takes => meta <- meta_of u; Some (if takes u then Paged meta u else Resident u)
  | _, _ => Some c
  end.
(* chunk.rs:451-467 *)
Definition col_combine (acc next : ColChunk) : option ColChunk := u <- meld_pair (into_trie acc) (into_trie next); Some (Resident u).
Definition col_split (chunk : ColChunk) (n : nat) : option (ColChunk * ColChunk) := ' (first, rest) <- split_at (into_trie chunk) n; Some (Resident first, Resident rest).
Definition col_settle (target : nat) (spiller : option (Updates -> bool)) (input : list ColChunk) (done : bool) : option (list ColChunk * list ColChunk) :=
  pack col_len target col_combine col_split (seal_chunk spiller) input done.
(* chunk.rs:328-468 *)
Definition col_chunk (target : nat) (rdefault : R) (spiller : option (Updates -> bool)) : ChunkOps ColChunk T :=
  {| ch_target := target; ch_len := col_len; ch_merge := col_merge; ch_extract := col_extract; ch_advance := col_advance rdefault; ch_settle := col_settle target spiller |}.
(* chunk.rs:304-326, the keys and values only, as the batch cursor reads them *)
Definition col_kv_bounds (c : ColChunk) : option ((K * V) * (K * V)) := ' (f, l) <- col_bounds c; Some (fst f, fst l).

(** ** The cursor, chunk.rs:193-280 *)
Record ColChunkCursor := { cc_key : nat; cc_val : nat }.
(* chunk.rs:299-301 *)
Definition cc_new : ColChunkCursor := {| cc_key := 0; cc_val := 0 |}.
Implicit Types (s : ColChunk) (c : ColChunkCursor).
(* chunk.rs:221 *)
Definition cc_key_valid s c : bool := cc_key c <? length (ls_values (u_keys (into_trie s))).
(* chunk.rs:222-226 *)
Definition cc_val_valid s c : option bool :=
  if cc_key_valid s c then ' (_, upper) <- child_range (ls_bounds (u_vals (into_trie s))) (cc_key c); Some (cc_val c <? upper) else Some false.
(* chunk.rs:227, 228 *)
Definition cc_key_of s c : option K := get (ls_values (u_keys (into_trie s))) (cc_key c).
Definition cc_val_of s c : option V := get (ls_values (u_vals (into_trie s))) (cc_val c).
(* chunk.rs:229-234 *)
Definition cc_get_key s c : option (option K) := if cc_key_valid s c then k <- cc_key_of s c; Some (Some k) else Some None.
Definition cc_get_val s c : option (option V) :=
  valid <- cc_val_valid s c;
  if (valid : bool) then v <- cc_val_of s c; Some (Some v) else Some None.
(* chunk.rs:235-244 *)
Fixpoint cc_times u (indices : list nat) : option (list (T * R)) :=
  match indices with
  | [] => Some []
  | i :: indices =>
      time <- get (ls_values (u_times u)) i;
      ' (lower, upper) <- child_range (ls_bounds (u_diffs u)) i;
      diffs <- (if lower <=? upper then slice (ls_values (u_diffs u)) lower upper else Some []);
      rest <- cc_times u indices;
      Some (map (pair time) diffs ++ rest)
  end.
Definition cc_map_times s c : option (list (T * R)) :=
  valid <- cc_val_valid s c;
  if (valid : bool) then
    ' (lower, upper) <- child_range (ls_bounds (u_times (into_trie s))) (cc_val c);
    cc_times (into_trie s) (range lower upper)
  else Some [].
(* chunk.rs:275-279 *)
Definition cc_rewind_vals s c : option ColChunkCursor :=
  if cc_key_valid s c then ' (lower, _) <- child_range (ls_bounds (u_vals (into_trie s))) (cc_key c); Some {| cc_key := cc_key c; cc_val := lower |}
  else Some c.
(* chunk.rs:274 *)
Definition cc_rewind_keys s c : option ColChunkCursor := cc_rewind_vals s {| cc_key := 0; cc_val := cc_val c |}.
(* chunk.rs:245-249 *)
Definition cc_step_key s c : option ColChunkCursor :=
  let c := {| cc_key := cc_key c + 1; cc_val := cc_val c |} in
  if cc_key_valid s c then cc_rewind_vals s c else Some {| cc_key := length (ls_values (u_keys (into_trie s))); cc_val := cc_val c |}.
(* chunk.rs:250-258 *)
Definition cc_seek_key s c (key : K) : option ColChunkCursor :=
  let keys := ls_values (u_keys (into_trie s)) in
  lo <- gallop (fun x => ltb x key) keys (cc_key c) (length keys);
  let c := {| cc_key := lo; cc_val := cc_val c |} in
  if cc_key_valid s c then cc_rewind_vals s c else Some c.
(* chunk.rs:259-264 *)
Definition cc_step_val s c : option ColChunkCursor :=
  let c := {| cc_key := cc_key c; cc_val := cc_val c + 1 |} in
  valid <- cc_val_valid s c;
  if (valid : bool) then Some c
  else ' (_, upper) <- child_range (ls_bounds (u_vals (into_trie s))) (cc_key c); Some {| cc_key := cc_key c; cc_val := upper |}.
(* chunk.rs:265-273 *)
Definition cc_seek_val s c (val : V) : option ColChunkCursor :=
  if cc_key_valid s c then
    ' (_, upper) <- child_range (ls_bounds (u_vals (into_trie s))) (cc_key c);
    lo <- gallop (fun x => ltb x val) (ls_values (u_vals (into_trie s))) (cc_val c) upper;
    Some {| cc_key := cc_key c; cc_val := lo |}
  else Some c.
Definition cc_ops : CursorOps ColChunk ColChunkCursor K V T R := {|
  c_key_valid := fun s c => Some (cc_key_valid s c); c_val_valid := cc_val_valid; c_key := cc_key_of; c_val := cc_val_of;
  c_get_key := cc_get_key; c_get_val := cc_get_val; c_map_times := cc_map_times; c_step_key := cc_step_key; c_seek_key := cc_seek_key;
  c_step_val := cc_step_val; c_seek_val := cc_seek_val; c_rewind_keys := cc_rewind_keys; c_rewind_vals := cc_rewind_vals |}.
End Trie.
Arguments Updates : clear implicits.
Arguments ColChunk : clear implicits.
