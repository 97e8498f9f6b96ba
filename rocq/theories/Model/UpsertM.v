(** * Model of differential-dataflow/src/operators/arrange/upsert.rs:128-327 arrange_from_upsert

    One worker's operator: what it does when activated, given the messages delivered and the input
    frontier.  [None] is a panic.  Messages are a capability's time and a vector of upserts.  The
    operator's own handle on the trace, [reader_local], is the handle number 0 of the trace; the handle
    published is a clone of it.  Differences are [isize], here [Z]: overflow is not modelled. *)
From Verif Require Export Model.ArrangeM Model.ConsolidationM Model.JoinTacticM.

Section Upsert.
Context {B M C K V T : Type} {OK : Ord K} {OV : Ord V} {TT : Time T}.
Local Notation U := (K * V * T * Z)%type.
Variable ops : BatchOps B M T.
Variable cops : CursorOps B C K V T Z. Variable new : C.
Variable build : list (list U) -> Description T -> B.       (* Bu::new, pushes, and done *)

(** 176: the heap, as a list in the order of its pops *)
Definition upsert := (T * K * option V)%type.
Definition u_before (a b : upsert) : bool := leb a b.
(* BinaryHeap::push *)
Fixpoint heap_push (x : upsert) (q : list upsert) : list upsert :=
  match q with [] => [x] | y :: q' => if u_before x y then x :: q else y :: heap_push x q' end.
(* 182-187 *)
Definition u_stash (q : list upsert) (us : list (K * option V * T)) : list upsert :=
  fold_left (fun q u => let '(key, val, time) := u in heap_push (time, key, val) q) us q.
(* 219, 222: BTreeMap::entry(key).or_insert(Vec::new()).push(..) *)
Fixpoint entry_push (key : K) (x : T * option V) (m : list (K * list (T * option V))) : list (K * list (T * option V)) :=
  match m with
  | [] => [(key, [x])]
  | (k, l) :: m' =>
      match cmp key k with
      | Lt => (key, [x]) :: m
      | Eq => (k, l ++ [x]) :: m'
      | Gt => (k, l) :: entry_push key x m'
      end
  end.
(* 219-223 *)
Fixpoint u_extract (upper : list T) (q : list upsert) (m : list (K * list (T * option V))) : list upsert * list (K * list (T * option V)) :=
  match q with
  | [] => (q, m)
  | (time, key, val) :: q' => if negb (ac_less_equal upper time) then u_extract upper q' (entry_push key (time, val) m) else (q, m)
  end.

(* 248-257: the loop over the values of the key; at most [fuel] of them *)
Fixpoint u_prior (fuel : nat) (tbs : list B) (tc : CursorList C) (prev_value : option V) : option (CursorList C * option V) :=
  vo <- c_get_val (cl_ops cops) tbs tc;
  match vo with
  | None => Some (tc, prev_value)
  | Some val =>
      match fuel with
      | 0 => None
      | S fuel =>
          ts <- c_map_times (cl_ops cops) tbs tc;
          let count := fold_left (fun c td => (c + snd td)%Z) ts 0%Z in
          prev_value <- (if (count =? 0)%Z then Some prev_value
                         else if (count =? 1)%Z then match prev_value with None => Some (Some val) | Some _ => None end
                         else None);
          tc <- c_step_val (cl_ops cops) tbs tc;
          u_prior fuel tbs tc prev_value
      end
  end.
(* 262: sort by time, then by value with the greatest first *)
Definition list_before (a b : T * option V) : bool :=
  match cmp (fst a) (fst b) with Lt => true | Gt => false | Eq => leb (snd b) (snd a) end.
Fixpoint list_insert (x : T * option V) (l : list (T * option V)) : list (T * option V) :=
  match l with [] => [x] | y :: l' => if list_before x y then x :: l else y :: list_insert x l' end.
Definition list_sort (l : list (T * option V)) : list (T * option V) := fold_right list_insert [] l.
(* 263: dedup_by keeps the first of each run *)
Fixpoint list_dedup_from (x : T * option V) (l : list (T * option V)) : list (T * option V) :=
  match l with [] => [x] | y :: l' => if eqb (fst y) (fst x) then list_dedup_from x l' else x :: list_dedup_from y l' end.
Definition list_dedup (l : list (T * option V)) : list (T * option V) := match l with [] => [] | x :: l' => list_dedup_from x l' end.
(* 264-274 *)
Fixpoint u_changes (key : K) (prev_value : option V) (l : list (T * option V)) : list U :=
  match l with
  | [] => []
  | (time, next) :: l' =>
      if negb (eqb prev_value next)
      then match prev_value with Some prev => [((key, prev), time, (-1)%Z)] | None => [] end ++
           match next with Some next => [((key, next), time, 1%Z)] | None => [] end ++ u_changes key next l'
      else u_changes key prev_value l'
  end.
(* 237-278; what is pushed to the builder.  [isort] orders by key, value and time; the Rust sort also
   compares the differences of equal ones, of which there are none (theorem) *)
Fixpoint u_keys (fuel : nat) (tbs : list B) (tc : CursorList C) (todo : list (K * list (T * option V))) : option (list (list U)) :=
  match todo with
  | [] => Some []
  | (key, l) :: todo =>
      tc <- c_seek_key (cl_ops cops) tbs tc key;
      tk <- c_get_key (cl_ops cops) tbs tc;
      ' (tc, prev_value) <-
        (if match tk with Some k => eqb k key | None => false end
         then ' (tc, prev_value) <- u_prior fuel tbs tc None;
              tc <- c_step_key (cl_ops cops) tbs tc;
              Some (tc, prev_value)
         else Some (tc, None));
      let updates := isort (A:=K*V*T) (u_changes key prev_value (list_dedup (list_sort l))) in
      rest <- u_keys fuel tbs tc todo;
      Some (updates :: rest)
  end.

(* 159-177 *)
Record ustate := { us_caps : list T; us_queue : list upsert; us_prev : list T }.
Definition u_start : ustate := {| us_caps := []; us_queue := []; us_prev := [tmin] |}.
(* 168-170: the trace, with the handle published *)
Definition u_trace (e : nat) : option (World B M T) := ' (w, _) <- w_step ops (world_new (with_effort e)) (CClone 0); Some w.

(* 203-287, for the capabilities from some index on; also the batches sent, and those inserted *)
Fixpoint u_commit (frontier caps : list T) (q : list upsert) (prev : list T) (w : World B M T)
  : option (list upsert * list T * World B M T * list (T * B) * list (B * option T)) :=
  match caps with
  | [] => Some (q, prev, w, [], [])
  | capability :: later =>
      if negb (ac_less_equal frontier capability) then
        let upper := ac_extend (ac_extend [] frontier) later in
        let (q, to_process) := u_extract upper q [] in
        bx <- w_box w;                                  (* the handle keeps the trace alive (theorem) *)
        tbs <- batches_through ops (bx_trace bx) [];
        tc <- cursor_list cops new tbs;
        pushed <- u_keys (sum_len (b_len ops) tbs) tbs tc to_process;
        description <- desc_new prev upper [tmin];
        let batch := build pushed description in
        ' (w, log) <- w_step ops w (CInsert batch (Some capability));
        ' (q, prev, w, outs, log') <- u_commit frontier later q upper w;
        Some (q, prev, w, (capability, batch) :: outs, log ++ log')
      else u_commit frontier later q prev w
  end.
(* 294-302 *)
Definition u_downgrade (caps : list T) (q : list upsert) : option (list T) :=
  match q with
  | [] => Some []
  | (time, _, _) :: _ => match find (fun c => tle c time) caps with Some _ => Some (ac_insert [] time) | None => None end
  end.
(* 195-318; also the batches sent, and those inserted in the trace *)
Definition u_work (frontier : list T) (st : ustate) (w : World B M T)
  : option (ustate * World B M T * list (T * B) * list (B * option T)) :=
  if negb (ac_eqb (us_prev st) frontier) then
    ' (q, caps, w, outs, log) <-
      (if existsb (fun c => negb (ac_less_equal frontier c)) (us_caps st) then
         ' (q, _, w, outs, log) <- u_commit frontier (us_caps st) (us_queue st) (us_prev st) w;
         caps <- u_downgrade (us_caps st) q;
         Some (q, caps, w, outs, log)
       else
         ' (w, log) <- w_step ops w (CSeal frontier);
         Some (us_queue st, us_caps st, w, [], log));
    let prev := ac_extend [] frontier in
    ' (w, log1) <- w_step ops w (CSetLogical 0 prev);
    ' (w, log2) <- w_step ops w (CSetPhysical 0 prev);
    Some ({| us_caps := caps; us_queue := q; us_prev := prev |}, w, outs, log ++ log1 ++ log2)
  else Some (st, w, [], []).
(* 182-187 *)
Definition u_receive (st : ustate) (msg : T * list (K * option V * T)) : ustate :=
  {| us_caps := ac_insert (us_caps st) (fst msg); us_queue := u_stash (us_queue st) (snd msg); us_prev := us_prev st |}.
(* 179-321 *)
Definition u_activate (msgs : list (T * list (K * option V * T))) (frontier : list T) (answer : option nat) (st : ustate) (w : World B M T)
  : option (ustate * World B M T * list (T * B) * list (B * option T)) :=
  let st := fold_left u_receive msgs st in
  if negb (ac_le (us_prev st) frontier) then None else
  ' (st, w, outs, log) <- u_work frontier st w;
  ' (w, log') <- w_step ops w (CExert answer);
  Some (st, w, outs, log ++ log').
End Upsert.
Arguments upsert : clear implicits.
Arguments ustate : clear implicits.
