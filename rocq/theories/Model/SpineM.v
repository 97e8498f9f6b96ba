(** * Model of differential-dataflow/src/trace/implementations/spine_fueled.rs *)
From Verif Require Export Base.Arrays Model.LatticeM Model.DescriptionM.

(** The traits [BatchReader], [Batch] and [Merger], trace/mod.rs:170-270: descriptions, lengths, and
    fueled merging.  [None] is a panic. *)
Record BatchOps (B M T : Type) := {
  b_desc : B -> Description T;
  b_len : B -> nat;
  b_begin : B -> B -> list T -> option M;
  b_work : M -> B -> B -> Z -> option (M * Z);
  b_done : M -> option B;
  b_empty : list T -> list T -> option B
}.
Arguments b_desc {B M T}. Arguments b_len {B M T}. Arguments b_begin {B M T}.
Arguments b_work {B M T}. Arguments b_done {B M T}. Arguments b_empty {B M T}.

Section Spine.
Context {B M T : Type} {TT : Time T}.
Variable ops : BatchOps B M T.

(* spine_fueled.rs:718-731 MergeState and 812-817 MergeVariant, in one type: [InProgress] and
   [Complete] are the two variants of [Double].  The pair of inputs kept in [Complete] is only used for
   logging and is left out. *)
Inductive mstate :=
| Vacant
| Single (b : option B)
| InProgress (b1 b2 : B) (m : M)
| Complete (b : option B).

Definition is_vacant (x : mstate) : bool := match x with Vacant => true | _ => false end.
Definition is_single (x : mstate) : bool := match x with Single _ => true | _ => false end.
Definition is_double (x : mstate) : bool := match x with InProgress _ _ _ | Complete _ => true | _ => false end.
Definition is_complete (x : mstate) : bool := match x with Complete _ => true | _ => false end.

(* 736-743 MergeState::len *)
Definition ms_len (x : mstate) : nat :=
  match x with
  | Single (Some b) => b_len ops b
  | InProgress b1 b2 _ => b_len ops b1 + b_len ops b2
  | Complete (Some b) => b_len ops b
  | _ => 0
  end.

(* 793-809 begin_merge *)
Definition begin_merge (o1 o2 : option B) (frontier : list T) : option mstate :=
  match o1, o2 with
  | Some b1, Some b2 =>
      if ac_eqb (d_upper (b_desc ops b1)) (d_lower (b_desc ops b2)) then
        m <- b_begin ops b1 b2 frontier; Some (InProgress b1 b2 m)
      else None
  | None, Some x => Some (Complete (Some x))
  | Some x, None => Some (Complete (Some x))
  | None, None => Some (Complete None)
  end.

(* 774-780 and 846-866 MergeState::work, MergeVariant::work *)
Definition ms_work (x : mstate) (fuel : Z) : option mstate :=
  match x with
  | InProgress b1 b2 m =>
      ' (m, rest) <- b_work ops m b1 b2 fuel;
      if (0 <? rest)%Z then b <- b_done ops m; Some (Complete (Some b)) else Some (InProgress b1 b2 m)
  | _ => Some x
  end.

(* 757-763 and 832-838 MergeState::complete, MergeVariant::complete: the layer becomes vacant.  The fuel
   isize::MAX is modelled by an amount larger than the number of updates in the two batches. *)
Definition ms_complete (x : mstate) : option (option B) :=
  match x with
  | Vacant => Some None
  | Single b => Some b
  | InProgress b1 b2 _ =>
      x <- ms_work x (Z.of_nat (b_len ops b1 + b_len ops b2) + 1)%Z;
      match x with Complete b => Some b | _ => None end
  | Complete b => Some b
  end.

(* 84-98 Spine, without operator info, loggers, activators and exert_logic (see [exert]) *)
Record Spine := {
  logical : list T; physical : list T; merging : list mstate; pending : list B; upper : list T; effort : nat
}.

(* 370-393 with_effort; 226-232 new *)
Definition with_effort (e : nat) : Spine := {|
  logical := [tmin]; physical := [tmin]; merging := []; pending := []; upper := [tmin];
  effort := if e =? 0 then 1 else e |}.

(* [while self.merging.len() <= index { self.merging.push(Vacant) }], 530-532 and 597-599 *)
Definition grow (ms : list mstate) (index : nat) : list mstate := ms ++ repeat Vacant (S index - length ms).

(* 595-624 insert_at *)
Definition insert_at (L : list T) (ms : list mstate) (batch : option B) (index : nat) : option (list mstate) :=
  let ms := grow ms index in
  x <- get ms index;
  match x with
  | Vacant => put ms index (Single batch)
  | Single old => y <- begin_merge old batch L; put ms index y
  | _ => None
  end.

(* 627-646 complete_at *)
Definition complete_at (ms : list mstate) (index : nat) : option (list mstate * option B) :=
  x <- get ms index; o <- ms_complete x; ms <- put ms index Vacant; Some (ms, o).

(* 563-589 apply_fuel: [n] rounds from [index] *)
Fixpoint apply_fuel_from (n index : nat) (L : list T) (ms : list mstate) (fuel : Z) : option (list mstate) :=
  match n with
  | 0 => Some ms
  | S n =>
      x <- get ms index; x <- ms_work x fuel; ms <- put ms index x;
      ms <- (if is_complete x then ' (ms, o) <- complete_at ms index; insert_at L ms o (index + 1) else Some ms);
      apply_fuel_from n (S index) L ms fuel
  end.
Definition apply_fuel (L : list T) (ms : list mstate) (fuel : Z) : option (list mstate) :=
  apply_fuel_from (length ms) 0 L ms fuel.

(* 538-542 of roll_up: the loop *)
Fixpoint roll_loop (n i : nat) (L : list T) (ms : list mstate) (merged : option B) : option (list mstate * option B) :=
  match n with
  | 0 => Some (ms, merged)
  | S n => ms <- insert_at L ms merged i; ' (ms, merged) <- complete_at ms i; roll_loop n (S i) L ms merged
  end.

(* 527-555 roll_up *)
Definition roll_up (L : list T) (ms : list mstate) (index : nat) : option (list mstate) :=
  let ms := grow ms index in
  if existsb (fun m => negb (is_vacant m)) (firstn index ms) then
    ' (ms, merged) <- roll_loop index 0 L ms None;
    ms <- insert_at L ms merged index;
    x <- get ms index;
    if is_double x then ' (ms, merged) <- complete_at ms index; insert_at L ms merged (index + 1) else Some ms
  else Some ms.

(* next_power_of_two().trailing_zeros() *)
Definition level_of (n : nat) : nat := Nat.log2_up n.

(* [self.merging.remove(i)] *)
Definition remove_at {A} (l : list A) (i : nat) : option (list A) :=
  if i <? length l then Some (firstn i l ++ skipn (S i) l) else None.

(* 683-690 of tidy_layers *)
Fixpoint smaller_from (index : nat) (ms : list mstate) : nat :=
  match ms with
  | [] => 0
  | x :: ms => match x with Vacant => 0 | Single _ => 2 ^ index | _ => 2 * 2 ^ index end + smaller_from (S index) ms
  end.

(* 665-708: the while loop of tidy_layers; each round but the last removes a layer *)
Fixpoint tidy_loop (fuel : nat) (appropriate : nat) (L : list T) (ms : list mstate) : option (list mstate) :=
  match fuel with
  | 0 => None
  | S fuel =>
      let length := length ms in
      if appropriate <? length - 1 then
        x <- get ms (length - 2);
        match x with
        | Vacant | Single None => ms <- remove_at ms (length - 2); tidy_loop fuel appropriate L ms
        | Single (Some batch) =>
            let smaller := smaller_from 0 (firstn (length - 2) ms) in
            if smaller <=? 2 ^ length / 8 then
              ms <- remove_at ms (length - 2); insert_at L ms (Some batch) (length - 2)
            else Some ms
        | _ => Some ms
        end
      else Some ms
  end.

(* 649-710 tidy_layers *)
Definition tidy_layers (L : list T) (ms : list mstate) : option (list mstate) :=
  match ms with
  | [] => Some ms
  | _ =>
      x <- get ms (length ms - 1);
      if is_single x then tidy_loop (S (length ms)) (level_of (ms_len x)) L ms else Some ms
  end.

(* 444-518 introduce_batch *)
Definition introduce_batch (e : nat) (L : list T) (ms : list mstate) (batch : option B) (index : nat) : option (list mstate) :=
  let fuel := Z.of_nat (8 * 2 ^ index * e) in
  ms <- apply_fuel L ms fuel;
  ms <- roll_up L ms index;
  ms <- insert_at L ms batch index;
  tidy_layers L ms.

(* [self.merging.iter().position(|m| !m.is_vacant())] *)
Fixpoint position (ms : list mstate) : option nat :=
  match ms with
  | [] => None
  | x :: ms => if is_vacant x then option_map S (position ms) else Some 0
  end.

(* 400-429: one round of the loop of consider_merges *)
Definition consider_one (e : nat) (L : list T) (ms : list mstate) (batch : B) : option (list mstate) :=
  let normal := introduce_batch e L ms (Some batch) (level_of (b_len ops batch)) in
  if b_len ops batch =? 0 then
    match position ms with
    | Some p =>
        x <- get ms p;
        if is_single x && (ms_len x =? 0) then
          ms <- insert_at L ms (Some batch) p;
          ' (ms, merged) <- complete_at ms p;
          put ms p (Single merged)
        else normal
    | None => normal
    end
  else normal.

(* 400-437 consider_merges (rescheduling is not modelled) *)
Fixpoint consider_loop (e : nat) (L P : list T) (ms : list mstate) (pend : list B) : option (list mstate * list B) :=
  match pend with
  | [] => Some (ms, [])
  | b :: pend' =>
      if ac_le (d_upper (b_desc ops b)) P then
        ms <- consider_one e L ms b; consider_loop e L P ms pend'
      else Some (ms, pend)
  end.
Definition consider_merges (s : Spine) : option Spine :=
  ' (ms, pend) <- consider_loop (effort s) (logical s) (physical s) (merging s) (pending s);
  Some {| logical := logical s; physical := physical s; merging := ms; pending := pend; upper := upper s; effort := effort s |}.

(* 193-196 set_logical_compaction *)
Definition set_logical (s : Spine) (F : list T) : Spine :=
  {| logical := ac_from F; physical := physical s; merging := merging s; pending := pending s; upper := upper s; effort := effort s |}.

(* 200-206 set_physical_compaction (the debug_assert is not modelled) *)
Definition set_physical (s : Spine) (F : list T) : option Spine :=
  consider_merges {| logical := logical s; physical := ac_from F; merging := merging s; pending := pending s; upper := upper s; effort := effort s |}.

(* 270-286 insert *)
Definition spine_insert (s : Spine) (b : B) : option Spine :=
  if ac_eqb (d_lower (b_desc ops b)) (d_upper (b_desc ops b)) then None
  else if negb (ac_eqb (d_lower (b_desc ops b)) (upper s)) then None
  else consider_merges {| logical := logical s; physical := physical s; merging := merging s; pending := pending s ++ [b];
                          upper := d_upper (b_desc ops b); effort := effort s |}.

(* 289-293 close *)
Definition spine_close (s : Spine) : option Spine :=
  match upper s with
  | [] => Some s
  | _ => b <- b_empty ops (upper s) []; spine_insert s b
  end.

(* 240-261 exert; the answer of the user's exert_logic (350-363) is the argument *)
Definition spine_exert (s : Spine) (answer : option nat) : option Spine :=
  ms <- tidy_layers (logical s) (merging s);
  ms <- match answer with
        | None => Some ms
        | Some e =>
            if existsb is_double ms then apply_fuel (logical s) ms (Z.of_nat e)
            else introduce_batch (effort s) (logical s) ms None (level_of e)
        end;
  Some {| logical := logical s; physical := physical s; merging := ms; pending := pending s; upper := upper s; effort := effort s |}.

(* 211-223 map_batches: the batches in the order visited *)
Definition layer_batches (x : mstate) : list B :=
  match x with
  | InProgress b1 b2 _ => [b1; b2]
  | Complete (Some b) => [b]
  | Single (Some b) => [b]
  | _ => []
  end.
Definition map_batches (s : Spine) : list B := flat_map layer_batches (rev (merging s)) ++ pending s.

(* 105-191 batches_through; [BatchReader::is_empty] is [len() == 0], trace/mod.rs:187 *)
Definition nonempty (b : B) : bool := negb (b_len ops b =? 0).
Fixpoint through_pending (upper : list T) (pend : list B) : option (list B) :=
  match pend with
  | [] => Some []
  | b :: pend =>
      if nonempty b then
        let include_lower := ac_le (d_lower (b_desc ops b)) upper in
        let include_upper := ac_le (d_upper (b_desc ops b)) upper in
        if negb (Bool.eqb include_lower include_upper) && negb (ac_eqb upper (d_lower (b_desc ops b))) then None
        else r <- through_pending upper pend; Some (if include_upper then b :: r else r)
      else through_pending upper pend
  end.
Definition batches_through (s : Spine) (upper : list T) : option (list B) :=
  if ac_less_equal upper tmin then Some []
  else match logical s with
       | [] => None
       | _ =>
           if ac_le (physical s) upper then
             r <- through_pending upper (pending s);
             Some (filter nonempty (flat_map layer_batches (rev (merging s))) ++ r)
           else None
       end.

(* trace/mod.rs:142-148 read_upper *)
Definition read_upper (s : Spine) : list T := fold_left (fun _ b => d_upper (b_desc ops b)) (map_batches s) [tmin].

(* trace/mod.rs:156-162 advance_upper *)
Definition advance_upper (s : Spine) (up : list T) : list T :=
  fold_left (fun up b => if negb (nonempty b) && ac_eqb (d_lower (b_desc ops b)) up then d_upper (b_desc ops b) else up) (map_batches s) up.

(** A history of calls. *)
Inductive s_op :=
| SInsert (b : B) | SClose | SExert (answer : option nat) | SSetLogical (F : list T) | SSetPhysical (F : list T).
Definition s_step (s : Spine) (op : s_op) : option Spine :=
  match op with
  | SInsert b => spine_insert s b
  | SClose => spine_close s
  | SExert a => spine_exert s a
  | SSetLogical F => Some (set_logical s F)
  | SSetPhysical F => set_physical s F
  end.
Fixpoint s_run (s : Spine) (l : list s_op) : option Spine :=
  match l with [] => Some s | op :: l => s <- s_step s op; s_run s l end.
End Spine.
Arguments mstate : clear implicits. Arguments Spine : clear implicits. Arguments s_op : clear implicits.
