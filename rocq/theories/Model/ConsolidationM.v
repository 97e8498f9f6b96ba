(** Model of differential-dataflow/src/consolidation.rs:23-145: consolidation in place.

    [consolidate_updates*] (88-145) is the same code as [consolidate*] (24-80) with the comparison of
    the single data field replaced by the comparison of data and then time.  A Coq triple [D * T * R]
    is a pair [(D * T) * R] with the lexicographic order on [D * T], so both are the functions below,
    used at [A := D] or at [A := D * T]. *)
From Verif Require Export Base.Order Base.Difference Base.Arrays.

Section Consolidate.
Context {A R : Type} {OA : Ord A} {DR : Diff R}.

Section InPlace.
(* slice.sort_by (54) and slice.sort_unstable_by (119): any sorting function *)
Variable srt : list (A * R) -> list (A * R).

(* consolidation.rs:60-72, the body of the [for index in 1 .. slice.len()] loop *)
Definition cs_body (st : list (A * R) * nat * R) (index : nat) : option (list (A * R) * nat * R) :=
  let '(slice, offset, accum) := st in
  x <- get slice index;
  y <- get slice (index - 1);
  if eqb (fst x) (fst y) then Some (slice, offset, dplus accum (snd x))
  else
    ' (slice, offset) <-
      (if negb (is_zero accum) then
         slice <- swap slice offset (index - 1);
         z <- get slice offset;
         slice <- put slice offset (fst z, accum);
         Some (slice, offset + 1)
       else Some (slice, offset));
    x <- get slice index;
    Some (slice, offset, snd x).

Definition cs_loop (st : list (A * R) * nat * R) (indices : list nat) : option (list (A * R) * nat * R) :=
  fold_left (fun st i => st' <- st; cs_body st' i) indices (Some st).

(* consolidation.rs:51-80 consolidate_slice_slow; the mutated slice is returned with the length *)
Definition consolidate_slice_slow (slice : list (A * R)) : option (list (A * R) * nat) :=
  let slice := srt slice in
  x <- get slice 0;
  ' (slice, offset, accum) <- cs_loop (slice, 0, snd x) (seq 1 (length slice - 1));
  if negb (is_zero accum) then
    slice <- swap slice offset (length slice - 1);
    z <- get slice offset;
    slice <- put slice offset (fst z, accum);
    Some (slice, offset + 1)
  else Some (slice, offset).

(* consolidation.rs:41-48 consolidate_slice *)
Definition consolidate_slice (slice : list (A * R)) : option (list (A * R) * nat) :=
  if 1 <? length slice then consolidate_slice_slow slice
  else Some (slice, length (filter (fun x => negb (is_zero (snd x))) slice)).

(* consolidation.rs:34-37 consolidate_from: [vec[offset..]] panics when offset exceeds the length *)
Definition consolidate_from_inplace (vec : list (A * R)) (offset : nat) : option (list (A * R)) :=
  if offset <=? length vec then
    ' (slice, length) <- consolidate_slice (skipn offset vec);
    Some (firstn (offset + length) (firstn offset vec ++ slice))
  else None.

(* consolidation.rs:24-26 consolidate *)
Definition consolidate_inplace (vec : list (A * R)) : option (list (A * R)) := consolidate_from_inplace vec 0.
End InPlace.

(** The same results as total functions, used by the rest of the model.  Theorem
    [consolidate_inplace_correct] (Props) shows that the in-place code above computes exactly these. *)
Fixpoint insert_sorted (x : A * R) (l : list (A * R)) : list (A * R) :=
  match l with
  | [] => [x]
  | y :: l' => if leb (fst x) (fst y) then x :: l else y :: insert_sorted x l'
  end.
Definition isort (l : list (A * R)) : list (A * R) := fold_right insert_sorted [] l.

Definition keep_nonzero (x : A * R) : list (A * R) := if is_zero (snd x) then [] else [x].

Fixpoint compact_go (cur : A * R) (l : list (A * R)) : list (A * R) :=
  match l with
  | [] => keep_nonzero cur
  | x :: l' => if eqb (fst x) (fst cur) then compact_go (fst cur, dplus (snd cur) (snd x)) l'
               else keep_nonzero cur ++ compact_go x l'
  end.
Definition compact (l : list (A * R)) : list (A * R) :=
  match l with [] => [] | x :: l' => compact_go x l' end.

Definition consolidate (vec : list (A * R)) : list (A * R) := compact (isort vec).
Definition consolidate_from (vec : list (A * R)) (offset : nat) : list (A * R) :=
  firstn offset vec ++ consolidate (skipn offset vec).
End Consolidate.
