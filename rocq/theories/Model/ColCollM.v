(** * Model of differential-dataflow/src/columnar/collection (container.rs, builder.rs, exchange.rs,
      operators.rs) and columnar/trace/chunker.rs
    [None] is a panic.  [target] is LINK_TARGET (columnar/mod.rs:41), and [srt] is [sort_unstable].
    The bytes of a container on the wire are not modelled. *)
From Verif Require Export Model.ColumnarM.

Section Coll.
Context {K V T R : Type} {OK : Ord K} {OV : Ord V} {TT : Time T} {DR : Diff R}.
Local Notation U := (K * V * T * R)%type.
Local Notation Upd := (Updates K V T R).
(** ** container.rs:16-24 *)
Record RecordedUpdates := { ru_updates : Upd; ru_records : nat; ru_consolidated : bool }.

(* container.rs:71-88 *)
Definition ru_negate {AR : Abelian R} (c : RecordedUpdates) : RecordedUpdates :=
  let u := ru_updates c in
  {| ru_updates := {| u_keys := u_keys u; u_vals := u_vals u; u_times := u_times u;
                      u_diffs := {| ls_bounds := ls_bounds (u_diffs u); ls_values := map dneg (ls_values (u_diffs u)) |} |};
     ru_records := ru_records c; ru_consolidated := ru_consolidated c |}.
(* container.rs:173-191; [step] is the summary's [results_in] *)
Definition ru_results_in (step : T -> option T) (c : RecordedUpdates) : option RecordedUpdates :=
  l <- updates_iter (ru_updates c);
  Some {| ru_updates := fold_left (fun output x => let '(k, v, t, d) := x in
                                     match step t with Some t => updates_push output (k, v, t, d) | None => output end) l updates_new;
          ru_records := ru_records c; ru_consolidated := false |}.

(** ** builder.rs: ValBuilder.  The container lent last ([empty]) is never read again *)
Record ValBuilder := { vb_current : list U; vb_pending : list RecordedUpdates }.
Definition vb_default : ValBuilder := {| vb_current := []; vb_pending := [] |}.
(* builder.rs:32-38, 70-76 *)
Definition vb_flush (srt : list U -> list U) (b : ValBuilder) : option ValBuilder :=
  updates <- form (srt (vb_current b));
  Some {| vb_current := []; vb_pending := vb_pending b ++ [{| ru_updates := updates; ru_records := length (vb_current b); ru_consolidated := true |}] |}.
(* builder.rs:29-40 *)
Definition vb_push (srt : list U -> list U) (target : nat) (b : ValBuilder) (item : U) : option ValBuilder :=
  let b := {| vb_current := vb_current b ++ [item]; vb_pending := vb_pending b |} in
  if target <? length (vb_current b) then vb_flush srt b else Some b.
(* builder.rs:58-65 *)
Definition vb_extract (b : ValBuilder) : ValBuilder * option RecordedUpdates :=
  match vb_pending b with
  | [] => (b, None)
  | c :: pending => ({| vb_current := vb_current b; vb_pending := pending |}, Some c)
  end.
(* builder.rs:68-80 *)
Definition vb_finish (srt : list U -> list U) (b : ValBuilder) : option (ValBuilder * option RecordedUpdates) :=
  b <- (match vb_current b with [] => Some b | _ => vb_flush srt b end);
  Some (vb_extract b).
(* what a client does with a builder, and all the containers it is lent *)
Inductive vb_op := VPush (item : U) | VExtract | VFinish.
Fixpoint vb_run (srt : list U -> list U) (target : nat) (b : ValBuilder) (ops : list vb_op) : option (ValBuilder * list RecordedUpdates) :=
  match ops with
  | [] => Some (b, [])
  | o :: ops =>
      ' (b, given) <- (match o with
                       | VPush item => b <- vb_push srt target b item; Some (b, None)
                       | VExtract => Some (vb_extract b)
                       | VFinish => vb_finish srt b
                       end);
      ' (b, rest) <- vb_run srt target b ops;
      Some (b, match given with Some c => c :: rest | None => rest end)
  end.
(* [while let Some(container) = builder.finish()], operators.rs:139; [None] if it does not end within [fuel] rounds *)
Fixpoint vb_drain (srt : list U -> list U) (fuel : nat) (b : ValBuilder) : option (ValBuilder * list RecordedUpdates) :=
  match fuel with
  | 0 => None
  | S fuel =>
      ' (b, given) <- vb_finish srt b;
      match given with
      | None => Some (b, [])
      | Some c => ' (b, rest) <- vb_drain srt fuel b; Some (b, c :: rest)
      end
  end.
(* a session of an operator: all that is given to it, and then a flush *)
Definition vb_session (srt : list U -> list U) (target : nat) (items : list U) : option (list RecordedUpdates) :=
  ' (b, _) <- vb_run srt target vb_default (map VPush items);
  ' (_, out) <- vb_drain srt (length items + 2) b;
  Some out.

(** ** trace/chunker.rs: TrieChunker.  What was lent last ([stage]) is never read again *)
Record TrieChunker := { tc_blobs : list (Upd * bool); tc_blob_records : nat; tc_ready : list Upd }.
Definition tc_default : TrieChunker := {| tc_blobs := []; tc_blob_records := 0; tc_ready := [] |}.
Fixpoint iter_all (l : list Upd) : option (list U) :=
  match l with [] => Some [] | u :: l => us <- updates_iter u; rest <- iter_all l; Some (us ++ rest) end.
(* chunker.rs:47-60: what the blobs add up to; the caller empties them *)
Definition tc_consolidate_blobs (srt : list U -> list U) (c : TrieChunker) : option Upd :=
  match tc_blobs c with
  | [(result, true)] => Some result
  | blobs => l <- iter_all (map fst blobs); form_unsorted srt l
  end.
(* chunker.rs:63-66 *)
Definition tc_absorb (c : TrieChunker) (updates : Upd) (consolidated : bool) : TrieChunker :=
  {| tc_blobs := tc_blobs c ++ [(updates, consolidated)]; tc_blob_records := tc_blob_records c + updates_len updates; tc_ready := tc_ready c |}.
Definition tc_ship (c : TrieChunker) (updates : Upd) : TrieChunker :=
  {| tc_blobs := tc_blobs c; tc_blob_records := tc_blob_records c; tc_ready := tc_ready c ++ [updates] |}.
(* chunker.rs:101-103, 110-112 *)
Definition tc_ship_or_keep (target : nat) (c : TrieChunker) (cons : Upd) : TrieChunker * option (Upd * bool) :=
  if target <=? updates_len cons then (tc_ship c cons, None)
  else if 0 <? updates_len cons then (c, Some (cons, true))
  else (c, None).
Definition tc_absorb_some (c : TrieChunker) (residual : option (Upd * bool)) : TrieChunker :=
  match residual with Some (r, b) => tc_absorb c r b | None => c end.
(* chunker.rs:70-120 *)
Definition tc_push (srt : list U -> list U) (target : nat) (c : TrieChunker) (container : RecordedUpdates) : option TrieChunker :=
  let updates := ru_updates container in
  let len := updates_len updates in
  if len =? 0 then Some c
  else if ru_consolidated container && (target <=? len) then Some (tc_ship c updates)
  else if tc_blob_records c + len <? 2 * target then Some (tc_absorb c updates (ru_consolidated container))
  else
    ' (c, input_residual) <- (if target <=? len then
                                cons <- (if ru_consolidated container then Some updates else updates_consolidate srt updates);
                                Some (tc_ship_or_keep target c cons)
                              else Some (c, Some (updates, ru_consolidated container)));
    ' (c, blobs_residual) <- (if target <=? tc_blob_records c then
                                cons <- tc_consolidate_blobs srt c;
                                Some (tc_ship_or_keep target {| tc_blobs := []; tc_blob_records := 0; tc_ready := tc_ready c |} cons)
                              else Some (c, None));
    Some (tc_absorb_some (tc_absorb_some c input_residual) blobs_residual).
(* chunker.rs:125-128 *)
Definition tc_extract (c : TrieChunker) : TrieChunker * option (ColChunk K V T R) :=
  match tc_ready c with
  | [] => (c, None)
  | u :: ready => ({| tc_blobs := tc_blobs c; tc_blob_records := tc_blob_records c; tc_ready := ready |}, Some (Resident u))
  end.
(* chunker.rs:129-136 *)
Definition tc_finish (srt : list U -> list U) (c : TrieChunker) : option (TrieChunker * option (ColChunk K V T R)) :=
  c <- (match tc_blobs c with
        | [] => Some c
        | _ => cons <- tc_consolidate_blobs srt c;
               let c := {| tc_blobs := []; tc_blob_records := 0; tc_ready := tc_ready c |} in
               Some (if 0 <? updates_len cons then tc_ship c cons else c)
        end);
  Some (tc_extract c).
Inductive tc_op := TPush (container : RecordedUpdates) | TExtract | TFinish.
Fixpoint tc_run (srt : list U -> list U) (target : nat) (c : TrieChunker) (ops : list tc_op) : option (TrieChunker * list (ColChunk K V T R)) :=
  match ops with
  | [] => Some (c, [])
  | o :: ops =>
      ' (c, given) <- (match o with
                       | TPush container => c <- tc_push srt target c container; Some (c, None)
                       | TExtract => Some (tc_extract c)
                       | TFinish => tc_finish srt c
                       end);
      ' (c, rest) <- tc_run srt target c ops;
      Some (c, match given with Some x => x :: rest | None => rest end)
  end.
Fixpoint tc_drain (srt : list U -> list U) (fuel : nat) (c : TrieChunker) : option (TrieChunker * list (ColChunk K V T R)) :=
  match fuel with
  | 0 => None
  | S fuel =>
      ' (c, given) <- tc_finish srt c;
      match given with
      | None => Some (c, [])
      | Some x => ' (c, rest) <- tc_drain srt fuel c; Some (c, x :: rest)
      end
  end.

(** ** exchange.rs: ValDistributor *)
(* updates.rs:136-144, 146-154: the range of the children of a range *)
Definition children_bounds (bounds : list nat) (lower upper : nat) : option (nat * nat) :=
  if lower <? upper then
    lo <- (match lower with 0 => Some 0 | S i => get bounds i end);
    hi <- get bounds (upper - 1);
    Some (lo, hi)
  else Some (lower, upper).
(* updates.rs:424-431 *)
Definition extend_from_keys (u other : Upd) (lower upper : nat) : option Upd :=
  ks <- slice (ls_values (u_keys other)) lower upper;
  vals <- extend_lists (u_vals u) (u_vals other) lower upper;
  ' (vlo, vhi) <- children_bounds (ls_bounds (u_vals other)) lower upper;
  times <- extend_lists (u_times u) (u_times other) vlo vhi;
  ' (tlo, thi) <- children_bounds (ls_bounds (u_times other)) vlo vhi;
  diffs <- extend_lists (u_diffs u) (u_diffs other) tlo thi;
  Some {| u_keys := push_values (u_keys u) ks; u_vals := vals; u_times := times; u_diffs := diffs |}.
(* exchange.rs:43-60.  [is_power_of_two] is said with a logarithm; hashes are any numbers, not just those of 64 bits *)
Definition power_of_two (n : nat) : bool := n =? 2 ^ Nat.log2 n.
Definition route (pushers h : nat) : nat := if power_of_two pushers then Nat.land h (pushers - 1) else h mod pushers.
Fixpoint route_keys (hash : K -> nat) (view : Upd) (pushers : nat) (ks : list nat) (outputs : list Upd) : option (list Upd) :=
  match ks with
  | [] => Some outputs
  | k :: ks =>
      key <- get (ls_values (u_keys view)) k;
      let idx := route pushers (hash key) in
      o <- get outputs idx;
      o <- extend_from_keys o view k (k + 1);
      route_keys hash view pushers ks (upd outputs idx o)
  end.
(* exchange.rs:61-65 *)
Definition seal_grown (o : Upd) (pre : nat) : Upd :=
  if pre <? length (ls_values (u_keys o))
  then {| u_keys := seal_list (u_keys o); u_vals := u_vals o; u_times := u_times o; u_diffs := u_diffs o |}
  else o.
(* exchange.rs:40-66 *)
Fixpoint route_groups (hash : K -> nat) (view : Upd) (pushers : nat) (outers : list nat) (outputs : list Upd) : option (list Upd) :=
  match outers with
  | [] => Some outputs
  | outer :: outers =>
      let pre_lens := map (fun o => length (ls_values (u_keys o))) outputs in
      ' (lower, upper) <- child_range (ls_bounds (u_keys view)) outer;
      outputs <- route_keys hash view pushers (seq lower (upper - lower)) outputs;
      route_groups hash view pushers outers (map (fun x => seal_grown (fst x) (snd x)) (List.combine outputs pre_lens))
  end.
(* exchange.rs:72-79: what is pushed to each pusher *)
Fixpoint push_outputs (first_records : nat) (consolidated : bool) (outputs : list Upd) : list (option RecordedUpdates) :=
  match outputs with
  | [] => []
  | o :: outputs =>
      if 0 <? length (ls_values (u_keys o))
      then Some {| ru_updates := o; ru_records := first_records; ru_consolidated := consolidated |} :: push_outputs 1 consolidated outputs
      else None :: push_outputs first_records consolidated outputs
  end.
(* exchange.rs:32-80 *)
Definition distribute (hash : K -> nat) (pushers : nat) (container : RecordedUpdates) : option (list (option RecordedUpdates)) :=
  let view := ru_updates container in
  outputs <- route_groups hash view pushers (seq 0 (length (ls_bounds (u_keys view)))) (repeat updates_new pushers);
  let non_empty := length (filter (fun o => 0 <? length (ls_values (u_keys o))) outputs) in
  Some (push_outputs (ru_records container - (non_empty - 1)) (ru_consolidated container) outputs).
End Coll.
Arguments RecordedUpdates K V T R : clear implicits.
Arguments ValBuilder K V T R : clear implicits.
Arguments TrieChunker K V T R : clear implicits.

Section Times.
Context {K V T1 T2 R : Type} {OK : Ord K} {OV : Ord V} {TT1 : Time T1} {TT2 : Time T2} {DR : Diff R}.
(* container.rs:103-127, 145-163: the times are changed one by one *)
Definition map_times (f : T1 -> T2) (u : Updates K V T1 R) : Updates K V T2 R :=
  {| u_keys := u_keys u; u_vals := u_vals u; u_times := {| ls_bounds := ls_bounds (u_times u); ls_values := map f (ls_values (u_times u)) |}; u_diffs := u_diffs u |}.
(* container.rs:99-128; [f] is [to_inner] *)
Definition ru_enter (f : T1 -> T2) (c : RecordedUpdates K V T1 R) : RecordedUpdates K V T2 R :=
  {| ru_updates := map_times f (ru_updates c); ru_records := ru_records c; ru_consolidated := ru_consolidated c |}.
(* container.rs:140-170; [f] is [to_outer] *)
Definition ru_leave (srt : list (K * V * T2 * R) -> list (K * V * T2 * R)) (f : T1 -> T2) (c : RecordedUpdates K V T1 R) : option (RecordedUpdates K V T2 R) :=
  u <- updates_consolidate srt (map_times f (ru_updates c));
  Some {| ru_updates := u; ru_records := ru_records c; ru_consolidated := true |}.
(* operators.rs:118-141, for one message; [f] truncates the time *)
Definition col_leave_dynamic (srt : list (K * V * T2 * R) -> list (K * V * T2 * R)) (target : nat) (f : T1 -> T2) (c : RecordedUpdates K V T1 R) : option (list (RecordedUpdates K V T2 R)) :=
  l <- updates_iter (ru_updates c);
  vb_session srt target (map (fun x => let '(k, v, t, d) := x in (k, v, f t, d)) l).
End Times.
Section Join.
Context {K V T R : Type} {OK : Ord K} {OV : Ord V} {TT : Time T} {DR : Diff R} {MR : Multiply R R R}.
Local Notation U := (K * V * T * R)%type.
(* operators.rs:45-56, for one message *)
Definition join_function (srt : list U -> list U) (target : nat) (logic : K -> V -> T -> R -> list U) (c : RecordedUpdates K V T R) : option (list (RecordedUpdates K V T R)) :=
  l <- updates_iter (ru_updates c);
  vb_session srt target (flat_map (fun x => let '(k1, v1, t1, d1) := x in
    map (fun y => let '(k2, v2, t2, d2) := y in (k2, v2, join t2 t1, dmul d2 d1)) (logic k1 v1 t1 d1)) l).
End Join.
