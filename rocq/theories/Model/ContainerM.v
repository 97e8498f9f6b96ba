(** * Batch containers: galloping search, offset lists, slice containers *)
From Verif Require Import Base.Arrays.
From Coq Require Import NArith.

(** ** [BatchContainer::advance]
    Models trace/implementations/mod.rs:440-476 over [Vec<T>] (481-510).  Indexing out of bounds is
    [None].  [usize] overflow of [step << 1] is not modelled.  Fuel: the growing loop at least
    increments [index] each round, the shrinking loop halves [step]; running out would be [None]. *)
Section Gallop.
Context {A : Type}.
Variable f : A -> bool.

(** [start + i < end && function(self.index(start + i))] *)
Definition probe (l : list A) (start end_ i : nat) : option bool :=
  if start + i <? end_ then x <- get l (start + i); Some (f x) else Some false.

(** mod.rs:453-456 *)
Fixpoint gallop_grow (fuel : nat) (l : list A) (start end_ index step : nat) : option (nat * nat) :=
  match fuel with
  | 0 => None
  | S fuel =>
    b <- probe l start end_ (index + step);
    if (b : bool) then gallop_grow fuel l start end_ (index + step) (2 * step) else Some (index, step)
  end.

(** mod.rs:460-465 *)
Fixpoint gallop_shrink (fuel : nat) (l : list A) (start end_ index step : nat) : option nat :=
  match step with
  | 0 => Some index
  | S _ =>
    match fuel with
    | 0 => None
    | S fuel =>
      b <- probe l start end_ (index + step);
      gallop_shrink fuel l start end_ (if (b : bool) then index + step else index) (step / 2)
    end
  end.

(** mod.rs:473-474: filter-and-count over [start .. limit] *)
Fixpoint count_sat (n : nat) (l : list A) (start : nat) : option nat :=
  match n with
  | 0 => Some 0
  | S n => x <- get l start; c <- count_sat n l (S start); Some ((if f x then 1 else 0) + c)
  end.

Definition small_limit := 8.

Definition advance (l : list A) (start end_ : nat) : option nat :=
  b <- (if start + small_limit <? end_ then x <- get l (start + small_limit); Some (f x) else Some false);
  if (b : bool) then
    let index := small_limit + 1 in
    b1 <- probe l start end_ index;
    if (b1 : bool) then
      '(index, step) <- gallop_grow (S end_) l start end_ index 1;
      index <- gallop_shrink step l start end_ index (step / 2);
      Some (index + 1)
    else Some index
  else
    count_sat (Nat.min end_ (start + small_limit) - start) l start.
End Gallop.

(** ** [OffsetList]
    Models trace/implementations/mod.rs:167-290.  Offsets are [N] (Rust [usize] on a 64-bit target);
    [try_into] to [u32] succeeds below 2^32; [try_into] to [u64] always succeeds. *)
Record OffsetList := { zero_prefix : nat; smol : list N; chonk : list N }.

Definition u32_limit : N := 4294967296.

(** mod.rs:184-190, 275-281 *)
Definition ol_with_capacity : OffsetList := {| zero_prefix := 0; smol := []; chonk := [] |}.

Definition is_nil {A} (l : list A) : bool := match l with [] => true | _ => false end.

(** mod.rs:192-207 *)
Definition ol_push (o : OffsetList) (offset : N) : OffsetList :=
  if is_nil (smol o) && is_nil (chonk o) && N.eqb offset 0 then
    {| zero_prefix := S (zero_prefix o); smol := smol o; chonk := chonk o |}
  else if is_nil (chonk o) then
    if N.ltb offset u32_limit
    then {| zero_prefix := zero_prefix o; smol := smol o ++ [offset]; chonk := chonk o |}
    else {| zero_prefix := zero_prefix o; smol := smol o; chonk := chonk o ++ [offset] |}
  else {| zero_prefix := zero_prefix o; smol := smol o; chonk := chonk o ++ [offset] |}.

(** mod.rs:209-219; [None] is the out-of-bounds panic *)
Definition ol_index (o : OffsetList) (i : nat) : option N :=
  if i <? zero_prefix o then Some 0%N
  else if i - zero_prefix o <? length (smol o) then get (smol o) (i - zero_prefix o)
  else get (chonk o) (i - zero_prefix o - length (smol o)).

(** mod.rs:221-223 *)
Definition ol_len (o : OffsetList) : nat := zero_prefix o + length (smol o) + length (chonk o).

(** mod.rs:273 *)
Definition ol_clear (o : OffsetList) : OffsetList := {| zero_prefix := 0; smol := []; chonk := [] |}.

(** [OffsetListIter::next], mod.rs:236-253, run from position [i] until it returns [None]. *)
Fixpoint ol_iter (fuel : nat) (o : OffsetList) (i : nat) : option (list N) :=
  if i <? ol_len o then
    match fuel with
    | 0 => None
    | S fuel => x <- ol_index o i; r <- ol_iter fuel o (S i); Some (x :: r)
    end
  else Some [].

(** A history of calls on an offset list. *)
Inductive ol_op := OLPush (n : N) | OLClear.
Definition ol_step (o : OffsetList) (op : ol_op) : OffsetList :=
  match op with OLPush n => ol_push o n | OLClear => ol_clear o end.
Definition ol_run (ops : list ol_op) : OffsetList := fold_left ol_step ops ol_with_capacity.

(** ** [SliceContainer]
    Models trace/implementations/mod.rs:513-593. *)
Section Slices.
Context {B : Type}.
Record SliceContainer := { sc_offsets : list nat; sc_inner : list B }.

(** mod.rs:559-574, 586-593 *)
Definition sc_new : SliceContainer := {| sc_offsets := [0]; sc_inner := [] |}.
(** mod.rs:524-529 *)
Definition sc_push (s : SliceContainer) (item : list B) : SliceContainer :=
  let inner := sc_inner s ++ item in
  {| sc_offsets := sc_offsets s ++ [length inner]; sc_inner := inner |}.
(** mod.rs:553-557 *)
Definition sc_clear (s : SliceContainer) : SliceContainer := {| sc_offsets := [0]; sc_inner := [] |}.
(** [&inner[lower .. upper]] panics unless [lower <= upper <= len]. *)
Definition slice (l : list B) (lower upper : nat) : option (list B) :=
  if (lower <=? upper) && (upper <=? length l) then Some (firstn (upper - lower) (skipn lower l)) else None.
(** mod.rs:575-579 *)
Definition sc_index (s : SliceContainer) (i : nat) : option (list B) :=
  lower <- get (sc_offsets s) i; upper <- get (sc_offsets s) (i + 1); slice (sc_inner s) lower upper.
(** mod.rs:580-582 *)
Definition sc_len (s : SliceContainer) : nat := length (sc_offsets s) - 1.
(** mod.rs:546: [clone_from_slice] panics when the lengths differ *)
Definition sc_clone_onto (item other : list B) : option (list B) :=
  if length item =? length other then Some item else None.

Inductive sc_op := SCPush (item : list B) | SCClear.
Definition sc_step (s : SliceContainer) (op : sc_op) : SliceContainer :=
  match op with SCPush i => sc_push s i | SCClear => sc_clear s end.
Definition sc_run (ops : list sc_op) : SliceContainer := fold_left sc_step ops sc_new.
End Slices.
Arguments SliceContainer : clear implicits.
Arguments sc_op : clear implicits.
