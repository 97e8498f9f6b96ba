(** * Model of differential-dataflow/src/operators/common.rs, update_meet and discover_times 197-376: the times at which a key's
    reduction is evaluated.  [None] is a panic. *)
From Verif Require Export Model.ReduceM.

Section Discover.
Context {V T R : Type} {OV : Ord V} {TT : Time T} {DR : Diff R}.
Variable upper : list T.

(** The scratch space and the local variables, common.rs:208-217 and 263-290.  [ds_synth] is kept in decreasing order and popped from
    its end by the code; here it is in the opposite order and consumed from its head.  [ds_times] and [ds_meets] are the slices of
    [key.pending] and of [meets] not passed yet. *)
Record dstate := {
  ds_batch : TimeHistory T; ds_input : ValueHistory V T R; ds_output : TimeHistory T;
  ds_times : list T; ds_meets : list T; ds_synth : list T; ds_current : list T; ds_meet : option T;
  ds_moments : list T; ds_pended : list T
}.
(* 292-296 *)
Definition discover_next (s : dstate) : option T :=
  least [th_time (ds_batch s); hd_error (ds_times s); vh_time (ds_input s); th_time (ds_output s); hd_error (ds_synth s)].
(* 302-304, 331-333 *)
Definition th_advance_if (m : option T) (h : TimeHistory T) : TimeHistory T := match m with Some m => th_advance_buffer_by h m | None => h end.
(* 326-330, 334-338: [next_time.join(t)], where 341-342 has [t.join(&next_time)] *)
Definition joins_from (next : T) (ts : list T) : list T := map (join next) (filter (fun t => negb (tle t next)) ts).
(* 298-373: the body of the loop *)
Definition discover_at (next : T) (s : dstate) : option dstate :=
  ' (_, input) <- vh_step_while_time_is (ds_input s) next;
  let output := snd (th_step_while_time_is (ds_output s) next) in
  let stepped := fst (th_step_while_time_is (ds_batch s) next) in
  let batch := snd (th_step_while_time_is (ds_batch s) next) in
  let batch := if stepped then th_advance_if (ds_meet s) batch else batch in
  let k := leading next (ds_synth s) in
  let j := leading next (ds_times s) in
  let synth := skipn k (ds_synth s) in
  let current := ds_current s ++ firstn k (ds_synth s) ++ firstn j (ds_times s) in
  let times := skipn j (ds_times s) in
  let meets := skipn j (ds_meets s) in
  let interesting := stepped || (0 <? k) || (0 <? j) || existsb (fun t => tle t next) (th_buffer batch) || existsb (fun t => tle t next) current in
  let within := negb (ac_less_equal upper next) in
  let input := if within && interesting then advance_if (ds_meet s) input else input in
  let output := if within && interesting then th_advance_if (ds_meet s) output else output in
  let moments := if within && interesting then ds_moments s ++ [next] else ds_moments s in
  let temporary := if within then
      (if interesting then joins_from next (buffer_times input) ++ joins_from next (th_buffer output) else []) ++
      joins_with next (th_buffer batch) ++ joins_with next current
    else [] in
  let temporary := sort_dedup temporary in
  let later := filter (ac_less_equal upper) temporary in
  let now := filter (fun t => negb (ac_less_equal upper t)) temporary in
  let pended := ds_pended s ++ later in
  let pended := if negb within && interesting then pended ++ [next] else pended in
  let synth := if is_nil now then synth else dedup (osort (synth ++ now)) in
  let m := update_meet None (th_meet batch) in
  let m := update_meet m (vh_meet input) in
  let m := update_meet m (th_meet output) in
  let m := fold_left (fun m t => update_meet m (Some t)) synth m in
  let m := update_meet m (hd_error meets) in
  let current := match m with Some m => map (fun t => join t m) current | None => current end in
  Some {| ds_batch := batch; ds_input := input; ds_output := output; ds_times := times; ds_meets := meets; ds_synth := synth;
          ds_current := sort_dedup current; ds_meet := m; ds_moments := moments; ds_pended := pended |}.
(* 292-374: the loop, for at most 2^n rounds; whether it has finished *)
Fixpoint discover_loop (n : nat) (s : dstate) : option (bool * dstate) :=
  match n with
  | 0 => match discover_next s with
         | None => Some (true, s)
         | Some next => s <- discover_at next s; Some (false, s)
         end
  | S n => ' (finished, s) <- discover_loop n s;
           if finished then Some (true, s) else discover_loop n s
  end.
(* 249-376.  [input] is the slice of the presentation that [key] names, 284; [moments] and [pended] are empty before.  The loop visits
   each join of the times loaded at most once, so that there are less than 2^n rounds (theorem). *)
Definition discover_times (input : list (V * T * R)) (pending seed_times out_times : list T) : option (list T * list T) :=
  let batch_replay := th_load seed_times None in
  let meets := suffix_meet pending in
  let m := update_meet None (hd_error meets) in
  let m := update_meet m (th_meet batch_replay) in
  input_replay <- load_iter input m;
  let output_replay := th_load out_times m in
  let n := length seed_times + length pending + length (vh_history input_replay) + length out_times in
  ' (finished, s) <- discover_loop n {| ds_batch := batch_replay; ds_input := input_replay; ds_output := output_replay; ds_times := pending; ds_meets := meets;
                               ds_synth := []; ds_current := []; ds_meet := m; ds_moments := []; ds_pended := [] |};
  if finished then Some (ds_moments s, sort_dedup (ds_pended s)) else None.
End Discover.
Arguments dstate : clear implicits.
