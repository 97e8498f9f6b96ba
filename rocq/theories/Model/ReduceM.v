(** * Model of differential-dataflow/src/operators/reduce.rs: sort_dedup 26-35, reduce_with_tactic 111-255,
    CursorTactic::retire 314-497 and HistoryReplayer::compute 553-810, and of
    arrange/arrangement.rs:269-287 reduce_abelian.  [None] is a panic.

    The user's [logic] is a function: it is given the key, the accumulated input and the accumulated
    output, and what it leaves in its last argument is its result.  Debug assertions are not modelled. *)
From Verif Require Export Model.HistoryM Model.JoinTacticM Model.AgentM Model.DescriptionM Model.BuilderM.

(* reduce.rs:26-35 *)
Definition sort_dedup {A} {OA : Ord A} (l : list A) : list A := dedup (osort (dedup l)).

(** ** The work for one key *)
Section Compute.
Context {K V1 V2 T R1 R2 : Type} {OV1 : Ord V1} {OV2 : Ord V2} {TT : Time T} {D1 : Diff R1} {D2 : Diff R2}.
Variable logic : K -> list (V1 * R1) -> list (V2 * R2) -> list (V2 * R2).
Variable upper : list T.

(* 802-809 *)
Definition update_meet (m : option T) (o : option T) : option T :=
  match o with
  | Some t => match m with Some m => Some (meet m t) | None => Some t end
  | None => m
  end.
(* 588-592: the meets of the suffixes of a list *)
Fixpoint suffix_meet (l : list T) : list T :=
  match l with
  | [] => []
  | t :: l => match suffix_meet l with [] => [t] | m :: ms => meet t m :: m :: ms end
  end.
(* 621-626: the least of the times present, in the total order *)
Definition least (l : list (option T)) : option T :=
  fold_left (fun a o => match a, o with Some x, Some y => Some (if leb x y then x else y) | Some x, None => Some x | None, o => o end) l None.

(** The state of the loop.  [cs_synth] is kept sorted in decreasing order and popped from its end by the
    code; here it is in the opposite order and consumed from its head.  [cs_times] and [cs_meets] are the
    slices of [times] and of [self.meets] not passed yet. *)
Record cstate := {
  cs_batch : ValueHistory V1 T R1; cs_input : ValueHistory V1 T R1; cs_output : ValueHistory V2 T R2;
  cs_times : list T; cs_meets : list T; cs_synth : list T; cs_current : list T; cs_meet : option T;
  cs_produced : list (V2 * T * R2);                       (* self.output_produced *)
  cs_outputs : list (T * list (V2 * T * R2));             (* outputs *)
  cs_new : list T                                         (* new_interesting *)
}.
(* 621-626 *)
Definition next_time (s : cstate) : option T :=
  least [vh_time (cs_batch s); hd_error (cs_times s); vh_time (cs_input s); vh_time (cs_output s); hd_error (cs_synth s)].
(* 645-650, 651-657: elements equal to [t] at the front *)
Fixpoint leading (t : T) (l : list T) : nat := match l with x :: l => if eqb x t then S (leading t l) else 0 | [] => 0 end.
(* 639, 693, 695 *)
Definition advance_if {V R} {OV : Ord V} {DR : Diff R} (m : option T) (h : ValueHistory V T R) : ValueHistory V T R :=
  match m with Some m => vh_advance_buffer_by h m | None => h end.
(* 684-699: joins of the current time with times not below it *)
Definition joins_with (next : T) (ts : list T) : list T := map (fun t => join t next) (filter (fun t => negb (tle t next)) ts).
Definition buffer_times {V R} (h : ValueHistory V T R) : list T := map (fun u => snd (fst u)) (vh_buffer h).
(* 729-743: the values of updates at or before a time *)
Definition values_at {V R} (next : T) (l : list (V * T * R)) : list (V * R) :=
  map (fun u => (fst (fst u), snd u)) (filter (fun u => tle (snd (fst u)) next) l).
(* 765-766 *)
Fixpoint last_position (next : T) (outputs : list (T * list (V2 * T * R2))) : option nat :=
  match outputs with
  | [] => None
  | (t, _) :: outputs =>
      match last_position next outputs with
      | Some i => Some (S i)
      | None => if tle t next then Some 0 else None
      end
  end.
(* 767-770, the pushes to [outputs[idx]] *)
Fixpoint push_output (idx : nat) (us : list (V2 * T * R2)) (outputs : list (T * list (V2 * T * R2))) : list (T * list (V2 * T * R2)) :=
  match outputs, idx with
  | (t, l) :: outputs, 0 => (t, l ++ us) :: outputs
  | x :: outputs, S idx => x :: push_output idx us outputs
  | [], _ => []
  end.
(* 719-780, the evaluation at an interesting time *)
Definition evaluate (key : K) (next : T) (input batch : list (V1 * T * R1)) (output : list (V2 * T * R2)) (m : option T)
  (produced : list (V2 * T * R2)) (outputs : list (T * list (V2 * T * R2)))
  : option (list (V2 * T * R2) * list (T * list (V2 * T * R2))) :=
  let input_buffer := consolidate (A:=V1) (values_at next input ++ values_at next batch) in
  let output_buffer := consolidate (A:=V2) (values_at next output ++ values_at next produced) in
  if negb (is_nil input_buffer) || negb (is_nil output_buffer) then
    let update_buffer := consolidate (A:=V2) (logic key input_buffer output_buffer) in
    if negb (is_nil update_buffer) then
      idx <- last_position next outputs;
      let us := map (fun vd => (fst vd, next, snd vd)) update_buffer in
      let produced := produced ++ us in
      let produced := match m with Some m => map (advance_by_meet m) produced | None => produced end in
      Some (consolidate (A:=V2*T) produced, push_output idx us outputs)
    else Some (produced, outputs)
  else Some (produced, outputs).
(* 628-796: the body of the loop *)
Definition compute_at (key : K) (next : T) (s : cstate) : option cstate :=
  ' (_, input) <- vh_step_while_time_is (cs_input s) next;
  ' (_, output) <- vh_step_while_time_is (cs_output s) next;
  ' (stepped, batch) <- vh_step_while_time_is (cs_batch s) next;
  let batch := if stepped then advance_if (cs_meet s) batch else batch in
  let k := leading next (cs_synth s) in
  let j := leading next (cs_times s) in
  let synth := skipn k (cs_synth s) in
  let current := cs_current s ++ firstn k (cs_synth s) ++ firstn j (cs_times s) in
  let times := skipn j (cs_times s) in
  let meets := skipn j (cs_meets s) in
  let interesting := stepped || (0 <? k) || (0 <? j) || existsb (fun t => tle t next) (buffer_times batch) || existsb (fun t => tle t next) current in
  ' (input, output, synth, produced, outputs, new) <-
    (if negb (ac_less_equal upper next) then
       let temporary := joins_with next (buffer_times batch) ++ joins_with next current in
       let input := if interesting then advance_if (cs_meet s) input else input in
       let output := if interesting then advance_if (cs_meet s) output else output in
       let temporary := if interesting then temporary ++ joins_with next (buffer_times input) ++ joins_with next (buffer_times output) ++
                                            joins_with next (map (fun u => snd (fst u)) (cs_produced s))
                        else temporary in
       let temporary := sort_dedup temporary in
       let later := filter (ac_less_equal upper) temporary in
       let now := filter (fun t => negb (ac_less_equal upper t)) temporary in
       let synth := if is_nil now then synth else dedup (osort (synth ++ now)) in
       ' (produced, outputs) <-
         (if interesting then evaluate key next (vh_buffer input) (vh_buffer batch) (vh_buffer output) (cs_meet s) (cs_produced s) (cs_outputs s)
          else Some (cs_produced s, cs_outputs s));
       Some (input, output, synth, produced, outputs, cs_new s ++ later)
     else
       Some (input, output, synth, cs_produced s, cs_outputs s, if interesting then cs_new s ++ [next] else cs_new s));
  let m := update_meet None (vh_meet batch) in
  let m := update_meet m (vh_meet input) in
  let m := update_meet m (vh_meet output) in
  let m := fold_left (fun m t => update_meet m (Some t)) synth m in
  let m := update_meet m (hd_error meets) in
  let current := match m with Some m => map (fun t => join t m) current | None => current end in
  Some {| cs_batch := batch; cs_input := input; cs_output := output; cs_times := times; cs_meets := meets; cs_synth := synth;
          cs_current := sort_dedup current; cs_meet := m; cs_produced := produced; cs_outputs := outputs; cs_new := new |}.
(* 621-797: the loop, for at most 2^n rounds; whether it has finished *)
Fixpoint compute_loop (n : nat) (key : K) (s : cstate) : option (bool * cstate) :=
  match n with
  | 0 => match next_time s with
         | None => Some (true, s)
         | Some next => s <- compute_at key next s; Some (false, s)
         end
  | S n => ' (finished, s) <- compute_loop n key s;
           if finished then Some (true, s) else compute_loop n key s
  end.

Section Cursors.
Context {St1 C1 St2 C2 : Type} {OK : Ord K}.
Variable ops1 : CursorOps St1 C1 K V1 T R1. Variable ops2 : CursorOps St2 C2 K V2 T R2.
(* operators/mod.rs:122-136 replay_key *)
Definition replay_key {V St C R} {OV : Ord V} {DR : Diff R} (ops : CursorOps St C K V T R) (fuel : nat) (st : St) (c : C) (key : K) (m : option T)
  : option (C * ValueHistory V T R) :=
  ' (c, el) <- populate_key ops fuel st c key m;
  h <- vh_build el;
  Some (c, h).
(* 553-799.  Each cursor comes with a bound on the number of values it may have for the key.  The loop
   visits each join of the times loaded at most once, so that there are less than 2^n rounds (theorem). *)
Definition compute (fuel1 fuel2 fuel3 : nat) (key : K) (source_st : St1) (source : C1) (output_st : St2) (output : C2) (batch_st : St1) (batch : C1)
  (times : list T) (outputs : list (T * list (V2 * T * R2))) (new : list T)
  : option (C1 * C2 * C1 * list (T * list (V2 * T * R2)) * list T) :=
  ' (batch, batch_replay) <- replay_key ops1 fuel3 batch_st batch key None;
  let meets := suffix_meet times in
  let m := update_meet None (hd_error meets) in
  let m := update_meet m (vh_meet batch_replay) in
  ' (source, input_replay) <- replay_key ops1 fuel1 source_st source key m;
  ' (output, output_replay) <- replay_key ops2 fuel2 output_st output key m;
  let n := length (vh_history batch_replay) + length times + length (vh_history input_replay) + length (vh_history output_replay) in
  ' (finished, s) <- compute_loop n key {| cs_batch := batch_replay; cs_input := input_replay; cs_output := output_replay; cs_times := times; cs_meets := meets;
                               cs_synth := []; cs_current := []; cs_meet := m; cs_produced := []; cs_outputs := outputs; cs_new := new |};
  if finished then Some (source, output, batch, cs_outputs s, sort_dedup (cs_new s)) else None.
End Cursors.
End Compute.
Arguments cstate : clear implicits.

(** ** The work for an interval *)
(* reduce.rs:430, [sort_by] on the values, which is stable *)
Fixpoint value_insert {V T R} {OV : Ord V} (x : V * T * R) (l : list (V * T * R)) : list (V * T * R) :=
  match l with [] => [x] | y :: l' => if leb (fst (fst x)) (fst (fst y)) then x :: l else y :: value_insert x l' end.
Definition value_sort {V T R} {OV : Ord V} (l : list (V * T * R)) : list (V * T * R) := fold_right value_insert [] l.

Section Retire.
Context {B1 M1 C1 B2 M2 C2 K V1 V2 T R1 R2 : Type} {OK : Ord K} {OV1 : Ord V1} {OV2 : Ord V2} {TT : Time T} {D1 : Diff R1} {D2 : Diff R2}.
Variable logic : K -> list (V1 * R1) -> list (V2 * R2) -> list (V2 * R2).
Variable bops1 : BatchOps B1 M1 T. Variable bops2 : BatchOps B2 M2 T.
Variable cops1 : CursorOps B1 C1 K V1 T R1. Variable new1 : C1.
Variable cops2 : CursorOps B2 C2 K V2 T R2. Variable new2 : C2.
Local Notation U := (K * V2 * T * R2)%type.
Variable build : list (list U) -> Description T -> B2.      (* Bu::new, pushes, and done *)

(* reduce.rs:371-376; at the end of the loop neither is present *)
Definition min_key (a b : option K) : option K :=
  match a, b with
  | Some a, Some b => Some (if leb a b then a else b)
  | Some a, None => Some a
  | None, b => b
  end.
(* 381-386: the pending times of the key, and the rest; [pending_keys] and [pending_time] as one list *)
Fixpoint take_key (key : K) (pending : list (K * T)) : list T * list (K * T) :=
  match pending with
  | (k, t) :: pending' => if eqb k key then let (ts, rest) := take_key key pending' in (t :: ts, rest) else ([], pending)
  | [] => ([], [])
  end.
Definition at_keyb (o : option K) (key : K) : bool := match o with Some k => eqb k key | None => false end.
(* what the key contributes to each builder, 426-434; reduce_abelian's callers have [push] replace the
   contents of the chunk by the updates of the key, e.g. collection.rs:849 *)
Definition chunk_of (key : K) (us : list (V2 * T * R2)) : list U := map (fun u => ((key, fst (fst u)), snd (fst u), snd u)) (value_sort us).
Fixpoint add_chunks (chunks : list (list U)) (pushed : list (list (list U))) : list (list (list U)) :=
  match chunks, pushed with
  | c :: chunks, p :: pushed => (c :: p) :: add_chunks chunks pushed
  | _, _ => []
  end.
(* 361-446: the loop over keys; [fuel] bounds its rounds.  The pending keys and times for later, and what
   is pushed to each builder. *)
Fixpoint retire_keys (fuel : nat) (f1 f2 f3 : nat) (upper held : list T) (source : list B1) (output : list B2) (input : list B1)
  (pending : list (K * T)) (sc : CursorList C1) (oc : CursorList C2) (bc : CursorList C1) : option (list (K * T) * list (list (list U))) :=
  ko <- c_get_key (cl_ops cops1) input bc;
  match min_key (option_map fst (hd_error pending)) ko with
  | None => Some ([], map (fun _ => []) held)
  | Some key =>
      match fuel with
      | 0 => None
      | S fuel =>
          let (mine, pending) := take_key key pending in
          let interesting := sort_dedup (filter (fun t => negb (ac_less_equal upper t)) mine) in
          if at_keyb ko key || negb (is_nil interesting) then
            ' (sc, oc, bc, buffers, new) <- compute logic upper (cl_ops cops1) (cl_ops cops2) f1 f2 f3 key source sc output oc input bc
                                              interesting (map (fun t => (t, [])) held) [];
            ko <- c_get_key (cl_ops cops1) input bc;
            bc <- (if at_keyb ko key then c_step_key (cl_ops cops1) input bc else Some bc);
            let new := sort_dedup (new ++ filter (ac_less_equal upper) mine) in
            ' (next, pushed) <- retire_keys fuel f1 f2 f3 upper held source output input pending sc oc bc;
            Some (map (fun t => (key, t)) new ++ next, add_chunks (map (fun b => chunk_of key (snd b)) buffers) pushed)
          else
            ' (next, pushed) <- retire_keys fuel f1 f2 f3 upper held source output input pending sc oc bc;
            Some (map (fun t => (key, t)) mine ++ next, pushed)
      end
  end.
(* 455-479: the batches, and the end of the last *)
Fixpoint tile_batches (upper : list T) (held : list T) (pushed : list (list (list U))) (output_lower last : list T) : option (list (T * B2) * list T) :=
  match held, pushed with
  | time :: held', p :: pushed' =>
      let output_upper := ac_extend (ac_extend [] upper) held' in
      if negb (ac_eqb output_upper output_lower) then
        description <- desc_new output_lower output_upper [tmin];
        ' (produced, last) <- tile_batches upper held' pushed' (ac_extend [] output_upper) output_upper;
        Some ((time, build p description) :: produced, last)
      else tile_batches upper held' pushed' output_lower output_upper
  | _, _ => Some ([], last)
  end.
(* 327-496.  [self.output_upper] is cleared before it is first used, so that what it was does not matter *)
Definition retire (source : list B1) (output : list B2) (input : list B1) (lower upper held : list T) (pending : list (K * T))
  : option (list (T * B2) * list T * list (K * T)) :=
  if existsb (fun t => negb (ac_less_equal upper t)) held then
    sc <- cursor_list cops1 new1 source;
    oc <- cursor_list cops2 new2 output;
    bc <- cursor_list cops1 new1 input;
    ' (next, pushed) <- retire_keys (length pending + sum_len (b_len bops1) input)
                          (sum_len (b_len bops1) source) (sum_len (b_len bops2) output) (sum_len (b_len bops1) input)
                          upper held source output input pending sc oc bc;
    ' (produced, output_upper) <- tile_batches upper held pushed (ac_extend [] lower) [];
    if negb (ac_eqb output_upper upper) then None else
    Some (produced, ac_from (map snd next), next)
  else Some ([], held, pending).

End Retire.

(** ** The operator, reduce.rs:111-255 *)
Section Operator.
Context {B1 M1 B2 M2 P T : Type} {TT : Time T}.
Variable bops1 : BatchOps B1 M1 T. Variable bops2 : BatchOps B2 M2 T.
(* 42-78: a tactic, with its state: of the batches of the input and output so far, the new batches of the input, the ends of the interval and the times
   of the capabilities, it gives the batches of the output with the times to send them at, the frontier to hold, and its state *)
Definition tactic_of : Type := list B1 -> list B2 -> list B1 -> list T -> list T -> list T -> P -> option (list (T * B2) * list T * P).
Variable tactic : tactic_of.
(** 149-153, the state of the tactic, and the frontiers of the handle on the source trace *)
Record rstate := { rs_caps : list T; rs_upper : list T; rs_pending : P; rs_handle : list T * list T }.
Definition r_start (p : P) (handle : list T * list T) : rstate := {| rs_caps := []; rs_upper := [tmin]; rs_pending := p; rs_handle := handle |}.
(* 141-146: the output trace.  The operator's own handle, [output_reader], is the handle number 0, and
   the handle published is a clone of it *)
Definition r_trace (e : nat) : option (World B2 M2 T) := ' (w, _) <- w_step bops2 (world_new (with_effort e)) (CClone 0); Some w.
(* CapabilitySet::delayed, which panics if no capability is at or before the time *)
Definition delayed (caps : list T) (time : T) : option T :=
  match find (fun c => tle c time) caps with Some _ => Some time | None => None end.
(* 223-227; the batches inserted in the trace, with their hints *)
Fixpoint r_ship (caps : list T) (produced : list (T * B2)) (w : World B2 M2 T) : option (World B2 M2 T * list (B2 * option T)) :=
  match produced with
  | [] => Some (w, [])
  | (time, batch) :: produced =>
      _ <- delayed caps time;
      ' (w, log) <- w_step bops2 w (CInsert batch (Some time));
      ' (w, log') <- r_ship caps produced w;
      Some (w, log ++ log')
  end.
(* 155-248; also the messages sent, and the batches inserted *)
Definition r_activate (s : Spine B1 M1 T) (msgs : list (T * list B1)) (frontier : list T) (answer : option nat) (st : rstate) (w : World B2 M2 T)
  : option (rstate * World B2 M2 T * list (T * B2) * list (B2 * option T)) :=
  let lower := ac_extend [] (rs_upper st) in
  let caps := fold_left (fun caps m => ac_insert caps (fst m)) msgs (rs_caps st) in
  let input := flat_map snd msgs in
  let upper := fold_left (fun _ b => d_upper (b_desc bops1 b)) input (rs_upper st) in
  let upper := advance_upper bops1 s upper in
  let upper := antichain_join upper frontier in
  ' (st, w, outs, log) <-
    (if negb (ac_eqb upper lower) then
       source <- batches_through bops1 s lower;
       bx <- w_box w;                                    (* the handle keeps the trace alive (theorem) *)
       output <- batches_through bops2 (bx_trace bx) lower;
       let held := ac_from caps in
       ' (produced, new_frontier, pending) <- tactic source output input lower upper held (rs_pending st);
       ' (w, log) <- r_ship caps produced w;
       caps <- mapM (delayed caps) new_frontier;          (* CapabilitySet::downgrade *)
       ' (w, log1) <- w_step bops2 w (CSeal upper);
       ' (w, log2) <- w_step bops2 w (CSetLogical 0 upper);
       ' (w, log3) <- w_step bops2 w (CSetPhysical 0 upper);
       Some ({| rs_caps := caps; rs_upper := upper; rs_pending := pending;
                rs_handle := (antichain_join (fst (rs_handle st)) upper, antichain_join (snd (rs_handle st)) upper) |}, w, produced, log ++ log1 ++ log2 ++ log3)
     else Some ({| rs_caps := caps; rs_upper := upper; rs_pending := rs_pending st; rs_handle := rs_handle st |}, w, [], []));
  ' (w, log') <- w_step bops2 w (CExert answer);
  Some (st, w, outs, log ++ log').
End Operator.
Arguments rstate : clear implicits. Arguments tactic_of : clear implicits.

(** ** reduce_abelian *)
(* arrange/arrangement.rs:281-287: the logic given to reduce_core *)
Definition abelian_logic {K V1 V2 R1 R2} {OV2 : Ord V2} {D2 : Diff R2} {A2 : Abelian R2} (logic : K -> list (V1 * R1) -> list (V2 * R2))
  (key : K) (input : list (V1 * R1)) (output : list (V2 * R2)) : list (V2 * R2) :=
  consolidate (A:=V2) ((if is_nil input then [] else logic key input) ++ map (fun xd => (fst xd, dneg (snd xd))) output).

(** ** count, threshold, distinct *)
(* collection.rs:916-928.  The first element of an empty slice would be a panic: reduce_abelian does not
   call the logic with one *)
Definition count_logic {K R R2} (one : R2) (key : K) (s : list (unit * R)) : list (R * R2) :=
  match s with (_, r) :: _ => [(r, one)] | [] => [] end.
(* collection.rs:876-888 *)
Definition threshold_logic {K R1 R2} (thresh : K -> R1 -> R2) (key : K) (s : list (unit * R1)) : list (unit * R2) :=
  match s with (_, r) :: _ => [(tt, thresh key r)] | [] => [] end.
(* collection.rs:852-854 *)
Definition distinct_logic {K R1 R2} (one : R2) : K -> list (unit * R1) -> list (unit * R2) := threshold_logic (fun _ _ => one).
