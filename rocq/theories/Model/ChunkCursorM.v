(** * Model of the cursors of differential-dataflow/src/trace/chunk/mod.rs and chunk/vec.rs *)
From Verif Require Export Model.CursorM Model.ChunkM.

(** ** VecChunkCursor, vec.rs:104-186 *)
Section VecCursor.
Context {K V T R : Type} {OK : Ord K} {OV : Ord V}.
Local Notation U := (K * V * T * R)%type.
Record VecChunkCursor := { vcc_key_pos : nat; vcc_val_pos : nat }.
(* vec.rs:197-199 *)
Definition vcc_new : VecChunkCursor := {| vcc_key_pos := 0; vcc_val_pos := 0 |}.
(* vec.rs:136 *)
Definition vcc_key_valid (s : list U) (c : VecChunkCursor) : bool := vcc_key_pos c <? length s.
(* vec.rs:140, 141 *)
Definition vcc_key (s : list U) (c : VecChunkCursor) : option K := u <- get s (vcc_key_pos c); Some (fst (fst (fst u))).
Definition vcc_val (s : list U) (c : VecChunkCursor) : option V := u <- get s (vcc_val_pos c); Some (snd (fst (fst u))).
(* vec.rs:137-139 *)
Definition vcc_val_valid (s : list U) (c : VecChunkCursor) : option bool :=
  if (vcc_key_pos c <? length s) && (vcc_val_pos c <? length s) then
    a <- get s (vcc_val_pos c);
    b <- get s (vcc_key_pos c);
    Some (eqb (fst (fst (fst a))) (fst (fst (fst b))))
  else Some false.
(* vec.rs:142-147 *)
Definition vcc_get_key (s : list U) (c : VecChunkCursor) : option (option K) :=
  if vcc_key_valid s c then k <- vcc_key s c; Some (Some k) else Some None.
Definition vcc_get_val (s : list U) (c : VecChunkCursor) : option (option V) :=
  valid <- vcc_val_valid s c;
  if (valid : bool) then v <- vcc_val s c; Some (Some v) else Some None.
(* the leading updates of [s] for which [p] holds: the loops [while i < s.len() && p(s[i]) { i += 1 }] *)
Fixpoint leading (p : U -> bool) (s : list U) : list U :=
  match s with u :: s => if p u then u :: leading p s else [] | [] => [] end.
(* vec.rs:148-156 *)
Definition vcc_map_times (s : list U) (c : VecChunkCursor) : option (list (T * R)) :=
  valid <- vcc_val_valid s c;
  if (valid : bool) then
    a <- get s (vcc_val_pos c);
    Some (map (fun u => (snd (fst u), snd u)) (leading (fun u => eqb (fst (fst u)) (fst (fst a))) (skipn (vcc_val_pos c) s)))
  else Some [].
(* vec.rs:157-166 *)
Definition vcc_step_key (s : list U) (c : VecChunkCursor) : option VecChunkCursor :=
  if length s <=? vcc_key_pos c then Some c
  else
    a <- get s (vcc_key_pos c);
    let i := vcc_key_pos c + length (leading (fun u => eqb (fst (fst (fst u))) (fst (fst (fst a)))) (skipn (vcc_key_pos c) s)) in
    Some {| vcc_key_pos := i; vcc_val_pos := i |}.
(* vec.rs:167-171 *)
Definition vcc_seek_key (s : list U) (c : VecChunkCursor) (key : K) : option VecChunkCursor :=
  i <- vc_gallop (fun u => ltb (fst (fst (fst u))) key) s (vcc_key_pos c);
  Some {| vcc_key_pos := i; vcc_val_pos := i |}.
(* vec.rs:172-178 *)
Definition vcc_step_val (s : list U) (c : VecChunkCursor) : option VecChunkCursor :=
  valid <- vcc_val_valid s c;
  if (valid : bool) then
    a <- get s (vcc_val_pos c);
    Some {| vcc_key_pos := vcc_key_pos c;
            vcc_val_pos := vcc_val_pos c + length (leading (fun u => eqb (fst (fst u)) (fst (fst a))) (skipn (vcc_val_pos c) s)) |}
  else Some c.
(* vec.rs:179-183 *)
Definition vcc_seek_val (s : list U) (c : VecChunkCursor) (val : V) : option VecChunkCursor :=
  if vcc_key_valid s c then
    key <- vcc_key s c;
    j <- vc_gallop (fun u => ltb (fst (fst u)) (key, val)) s (vcc_val_pos c);
    Some {| vcc_key_pos := vcc_key_pos c; vcc_val_pos := j |}
  else Some c.
(* vec.rs:184, 185 *)
Definition vcc_rewind_keys (s : list U) (c : VecChunkCursor) : option VecChunkCursor := Some {| vcc_key_pos := 0; vcc_val_pos := 0 |}.
Definition vcc_rewind_vals (s : list U) (c : VecChunkCursor) : option VecChunkCursor := Some {| vcc_key_pos := vcc_key_pos c; vcc_val_pos := vcc_key_pos c |}.

Definition vcc_ops : CursorOps (list U) VecChunkCursor K V T R := {|
  c_key_valid := fun s c => Some (vcc_key_valid s c); c_val_valid := vcc_val_valid; c_key := vcc_key; c_val := vcc_val;
  c_get_key := vcc_get_key; c_get_val := vcc_get_val; c_map_times := vcc_map_times; c_step_key := vcc_step_key; c_seek_key := vcc_seek_key;
  c_step_val := vcc_step_val; c_seek_val := vcc_seek_val; c_rewind_keys := vcc_rewind_keys; c_rewind_vals := vcc_rewind_vals |}.

(* vec.rs:204-208, the keys and values only; both indexings panic on an empty chunk *)
Definition vc_bounds (s : list U) : option ((K * V) * (K * V)) :=
  f <- get s 0;
  l <- (if length s =? 0 then None else get s (length s - 1));
  Some (fst (fst f), fst (fst l)).
End VecCursor.

(** ** ChunkBatchCursor, mod.rs:313-482
    over the chunks of a batch, of any type with a cursor of its own ([inner], opened by [fresh]) and
    [bounds], the first and last key and value. *)
Section ChunkCursor.
Context {C I K V T R : Type} {OK : Ord K} {OV : Ord V}.
Variable inner : CursorOps C I K V T R.
Variable fresh : C -> I.
Variable bounds : C -> option ((K * V) * (K * V)).
(* mod.rs:313-320 *)
Record ChunkBatchCursor := { cbc_key_chunk : nat; cbc_chunk : nat; cbc_inner : option I }.
(* mod.rs:258-263 *)
Definition cbc_new (s : list C) : ChunkBatchCursor := {| cbc_key_chunk := 0; cbc_chunk := 0; cbc_inner := option_map fresh (get s 0) |}.
(* mod.rs:324-327 *)
Definition cbc_goto (s : list C) (x : ChunkBatchCursor) (c : nat) : ChunkBatchCursor :=
  {| cbc_key_chunk := cbc_key_chunk x; cbc_chunk := c; cbc_inner := option_map fresh (get s c) |}.
(* mod.rs:334-337 *)
Definition key_spills (s : list C) (c : nat) (k : K) : option bool :=
  a <- get s c;
  ' (_, last) <- bounds a;
  if eqb (fst last) k then
    b <- get s (c + 1);
    ' (first, _) <- bounds b;
    Some (eqb (fst first) k)
  else Some false.
(* mod.rs:340-344 *)
Definition val_spills (s : list C) (c : nat) (k : K) (v : V) : option bool :=
  spills <- key_spills s c k;
  if (spills : bool) then
    a <- get s c;
    ' (_, last) <- bounds a;
    if eqb (snd last) v then
      b <- get s (c + 1);
      ' (first, _) <- bounds b;
      Some (eqb (snd first) v)
    else Some false
  else Some false.
(* mod.rs:354-355 *)
Definition last_below (s : list C) (key : K) (i : nat) : option bool :=
  a <- get s i;
  ' (_, last) <- bounds a;
  Some (ltb (fst last) key).
(* mod.rs:362; each round increases [prev] *)
Fixpoint locate_grow (fuel : nat) (s : list C) (key : K) (prev step : nat) : option (nat * nat) :=
  match fuel with
  | 0 => None
  | S fuel =>
      b <- (if prev + step <? length s then last_below s key (prev + step) else Some false);
      if (b : bool) then locate_grow fuel s key (prev + step) (2 * step) else Some (prev, step)
  end.
(* mod.rs:364; each round shortens the interval *)
Fixpoint locate_search (fuel : nat) (s : list C) (key : K) (a b : nat) : option nat :=
  if a <? b then
    match fuel with
    | 0 => None
    | S fuel =>
        let m := a + (b - a) / 2 in
        below <- last_below s key m;
        if (below : bool) then locate_search fuel s key (m + 1) b else locate_search fuel s key a m
    end
  else Some a.
(* mod.rs:351-366 *)
Definition locate_key (s : list C) (hint : nat) (key : K) : option nat :=
  let n := length s in
  let hint := Nat.min hint n in
  b <- (if hint =? 0 then Some true else last_below s key (hint - 1));
  let lo := if (b : bool) then hint else 0 in
  if n <=? lo then Some lo
  else
    below <- last_below s key lo;
    if (below : bool) then
      ' (prev, step) <- locate_grow (S n) s key lo 1;
      locate_search n s key (prev + 1) (Nat.min (prev + step) n)
    else Some lo.

(* mod.rs:384, 385 *)
Definition cbc_key_valid (s : list C) (x : ChunkBatchCursor) : option bool :=
  if cbc_chunk x <? length s then
    match cbc_inner x with Some i => c <- get s (cbc_chunk x); c_key_valid inner c i | None => Some false end
  else Some false.
Definition cbc_val_valid (s : list C) (x : ChunkBatchCursor) : option bool :=
  if cbc_chunk x <? length s then
    match cbc_inner x with Some i => c <- get s (cbc_chunk x); c_val_valid inner c i | None => Some false end
  else Some false.
(* mod.rs:386-389 *)
Definition cbc_key (s : list C) (x : ChunkBatchCursor) : option K := i <- cbc_inner x; c <- get s (cbc_chunk x); c_key inner c i.
Definition cbc_val (s : list C) (x : ChunkBatchCursor) : option V := i <- cbc_inner x; c <- get s (cbc_chunk x); c_val inner c i.
Definition cbc_get_key (s : list C) (x : ChunkBatchCursor) : option (option K) :=
  valid <- cbc_key_valid s x;
  if (valid : bool) then k <- cbc_key s x; Some (Some k) else Some None.
Definition cbc_get_val (s : list C) (x : ChunkBatchCursor) : option (option V) :=
  valid <- cbc_val_valid s x;
  if (valid : bool) then v <- cbc_val s x; Some (Some v) else Some None.

(* mod.rs:397-400; each round increases [c] *)
Fixpoint cbc_follow (fuel : nat) (s : list C) (c : nat) (k : K) (v : V) : option (list (T * R)) :=
  if c + 1 <? length s then
    spills <- val_spills s c k v;
    if (spills : bool) then
      match fuel with
      | 0 => None
      | S fuel =>
          a <- get s (c + 1);
          ts <- c_map_times inner a (fresh a);
          rest <- cbc_follow fuel s (c + 1) k v;
          Some (ts ++ rest)
      end
    else Some []
  else Some [].
(* mod.rs:391-401 *)
Definition cbc_map_times (s : list C) (x : ChunkBatchCursor) : option (list (T * R)) :=
  valid <- cbc_val_valid s x;
  if (valid : bool) then
    k <- cbc_key s x;
    v <- cbc_val s x;
    i <- cbc_inner x;
    a <- get s (cbc_chunk x);
    ts <- c_map_times inner a i;
    rest <- cbc_follow (length s) s (cbc_chunk x) k v;
    Some (ts ++ rest)
  else Some [].

(* mod.rs:408-410, 439-441: to the last chunk for which [spills] *)
Fixpoint cbc_to_last (fuel : nat) (spills : nat -> option bool) (s : list C) (x : ChunkBatchCursor) : option ChunkBatchCursor :=
  if cbc_chunk x + 1 <? length s then
    b <- spills (cbc_chunk x);
    if (b : bool) then
      match fuel with 0 => None | S fuel => cbc_to_last fuel spills s (cbc_goto s x (cbc_chunk x + 1)) end
    else Some x
  else Some x.
(* [self.inner.as_mut().unwrap().f(&s.chunks[self.chunk])] *)
Definition cbc_within (f : C -> I -> option I) (s : list C) (x : ChunkBatchCursor) : option ChunkBatchCursor :=
  i <- cbc_inner x;
  c <- get s (cbc_chunk x);
  i <- f c i;
  Some {| cbc_key_chunk := cbc_key_chunk x; cbc_chunk := cbc_chunk x; cbc_inner := Some i |}.
Definition cbc_inner_valid (valid : C -> I -> option bool) (s : list C) (x : ChunkBatchCursor) : option bool :=
  i <- cbc_inner x;
  c <- get s (cbc_chunk x);
  valid c i.
(* mod.rs:403-422 *)
Definition cbc_step_key (s : list C) (x : ChunkBatchCursor) : option ChunkBatchCursor :=
  valid <- cbc_key_valid s x;
  if (valid : bool) then
    k <- cbc_key s x;
    x <- cbc_to_last (length s) (fun c => key_spills s c k) s x;
    x <- cbc_within (fun c i => c_seek_key inner c i k) s x;
    x <- cbc_within (c_step_key inner) s x;
    valid <- cbc_inner_valid (c_key_valid inner) s x;
    let x := if negb valid && (cbc_chunk x + 1 <? length s) then cbc_goto s x (cbc_chunk x + 1) else x in
    Some {| cbc_key_chunk := cbc_chunk x; cbc_chunk := cbc_chunk x; cbc_inner := cbc_inner x |}
  else Some x.
(* mod.rs:424-432 *)
Definition cbc_seek_key (s : list C) (x : ChunkBatchCursor) (key : K) : option ChunkBatchCursor :=
  lo <- locate_key s (cbc_key_chunk x) key;
  let x := cbc_goto s x lo in
  let x := {| cbc_key_chunk := lo; cbc_chunk := cbc_chunk x; cbc_inner := cbc_inner x |} in
  if lo <? length s then cbc_within (fun c i => c_seek_key inner c i key) s x else Some x.
(* mod.rs:434-451 *)
Definition cbc_step_val (s : list C) (x : ChunkBatchCursor) : option ChunkBatchCursor :=
  valid <- cbc_val_valid s x;
  if (valid : bool) then
    k <- cbc_key s x;
    v <- cbc_val s x;
    x <- cbc_to_last (length s) (fun c => val_spills s c k v) s x;
    x <- cbc_within (c_step_val inner) s x;
    valid <- cbc_inner_valid (c_val_valid inner) s x;
    if (valid : bool) then Some x
    else if cbc_chunk x + 1 <? length s then
      spills <- key_spills s (cbc_chunk x) k;
      if (spills : bool) then cbc_within (fun c i => c_seek_key inner c i k) s (cbc_goto s x (cbc_chunk x + 1)) else Some x
    else Some x
  else Some x.
(* mod.rs:457-467; each round but the last increases the chunk *)
Fixpoint cbc_seek_val_loop (fuel : nat) (s : list C) (x : ChunkBatchCursor) (k : K) (val : V) : option ChunkBatchCursor :=
  x <- cbc_within (fun c i => c_seek_val inner c i val) s x;
  valid <- cbc_inner_valid (c_val_valid inner) s x;
  if (valid : bool) then Some x
  else if cbc_chunk x + 1 <? length s then
    spills <- key_spills s (cbc_chunk x) k;
    if (spills : bool) then
      x <- cbc_within (fun c i => c_seek_key inner c i k) s (cbc_goto s x (cbc_chunk x + 1));
      match fuel with 0 => None | S fuel => cbc_seek_val_loop fuel s x k val end
    else Some x
  else Some x.
(* mod.rs:453-468 *)
Definition cbc_seek_val (s : list C) (x : ChunkBatchCursor) (val : V) : option ChunkBatchCursor :=
  valid <- cbc_key_valid s x;
  if (valid : bool) then k <- cbc_key s x; cbc_seek_val_loop (length s) s x k val else Some x.
(* mod.rs:470-473 *)
Definition cbc_rewind_keys (s : list C) (x : ChunkBatchCursor) : option ChunkBatchCursor :=
  Some {| cbc_key_chunk := 0; cbc_chunk := 0; cbc_inner := option_map fresh (get s 0) |}.
(* mod.rs:475-481 *)
Definition cbc_rewind_vals (s : list C) (x : ChunkBatchCursor) : option ChunkBatchCursor :=
  valid <- cbc_key_valid s x;
  if (valid : bool) then
    k <- cbc_key s x;
    cbc_within (fun c i => c_seek_key inner c i k) s (cbc_goto s x (cbc_key_chunk x))
  else Some x.

Definition cbc_ops : CursorOps (list C) ChunkBatchCursor K V T R := {|
  c_key_valid := cbc_key_valid; c_val_valid := cbc_val_valid; c_key := cbc_key; c_val := cbc_val;
  c_get_key := cbc_get_key; c_get_val := cbc_get_val; c_map_times := cbc_map_times; c_step_key := cbc_step_key; c_seek_key := cbc_seek_key;
  c_step_val := cbc_step_val; c_seek_val := cbc_seek_val; c_rewind_keys := cbc_rewind_keys; c_rewind_vals := cbc_rewind_vals |}.
End ChunkCursor.
Arguments ChunkBatchCursor : clear implicits.
