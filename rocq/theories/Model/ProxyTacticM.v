(** * Model of differential-dataflow/src/operators/int_proxy/reduce.rs: reducing by proxies, and of tile_descriptions in operators/common.rs
    Hashes and identifiers, [u64] in the code, are of any ordered types [H] and [I].  [None] is a panic.  Scratch space that is cleared before
    each use is left out, and so are the debug assertions. *)
From Verif Require Export Model.ProxyReduceM Model.ProxyJoinM.

(** ** Tiles *)
Section Tiles.
Context {T : Type} {TT : Time T}.
(* common.rs:158-180; [held] is what the loop has left, [n] the number of descriptions made *)
Fixpoint tile_loop (upper : list T) (held : list T) (out_lower : list T) (n : nat) : option (list (Description T) * list T * list (option nat)) :=
  match held with
  | [] => Some ([], [], [])
  | time :: held =>
      let out_upper := ac_extend upper held in
      if negb (ac_eqb out_upper out_lower) then
        d <- desc_new out_lower out_upper [tmin];
        ' (descs, tile_held, tile_of) <- tile_loop upper held out_upper (S n);
        Some (d :: descs, time :: tile_held, Some n :: tile_of)
      else
        ' (descs, tile_held, tile_of) <- tile_loop upper held out_lower n;
        Some (descs, tile_held, None :: tile_of)
  end.
Definition tile_descriptions (lower upper held : list T) := tile_loop upper held lower 0.
(* [held_elems.iter().rposition(|h| h.less_equal(t))], reduce.rs:320 *)
Fixpoint rposition (held : list T) (t : T) : option nat :=
  match held with
  | [] => None
  | h :: held => match rposition held t with Some i => Some (S i) | None => if tle h t then Some 0 else None end
  end.
End Tiles.

Section ProxyReduce.
Context {B1 B2 T RIn ROut H I S : Type} {OH : Ord H} {OI : Ord I} {TT : Time T} {DI : Diff RIn} {DO : Diff ROut}.

(* reduce.rs:21-31 *)
Record ReduceInstance := { ri_source : list B1; ri_input : list B1; ri_output : list B2; ri_lower : list T }.
(* reduce.rs:36-44 *)
Record ReduceWindow := { w_keys : list H; w_input : bridge H I T RIn; w_output : bridge H I T ROut }.
(* reduce.rs:51-97 ProxyReduceBackend: its methods take the backend by mutable reference, here they return its state; [next_window] also
   returns the cursor *)
Record ReduceBackend := {
  rb_seed_times : ReduceInstance -> S -> list (H * T);
  rb_begin : list (Description T) -> S -> S;
  rb_next_window : ReduceInstance -> list H -> nat -> S -> S * nat * option ReduceWindow;
  rb_corrections : list H -> list nat -> list (I * RIn) -> list nat -> list (I * ROut) -> S -> S * (list (I * ROut) * list nat);
  rb_emit : nat -> list (H * I * T * ROut) -> S -> S;
  rb_finish : S -> S * list B2
}.
Variable backend : ReduceBackend.

(* the run of a key in a list sorted by keys, and what is after it: reduce.rs:193-204 *)
Fixpoint skip_below {X} (key_of : X -> H) (key : H) (l : list X) : list X :=
  match l with x :: l' => if ltb (key_of x) key then skip_below key_of key l' else l | [] => [] end.
Fixpoint take_key {X} (key_of : X -> H) (key : H) (l : list X) : list X * list X :=
  match l with
  | x :: l' => if eqb (key_of x) key then let '(r, rest) := take_key key_of key l' in (x :: r, rest) else ([], l)
  | [] => ([], [])
  end.
Definition key_run {X} (key_of : X -> H) (key : H) (l : list X) : list X * list X := take_key key_of key (skip_below key_of key l).
(* [self.pending.get(&key)], 209; the map is a list sorted by key *)
Definition pending_at (pending : list (H * list T)) (key : H) : list T :=
  match find (fun kp => eqb (fst kp) key) pending with Some kp => snd kp | None => [] end.

(* KeyState, 358-366.  [moments] and [meets] are what is left of them from the cursor on *)
Record KeyState := {
  ks_key : H; ks_moments : list T; ks_meets : list T;
  ks_in : ValueHistory I T RIn; ks_out : ValueHistory I T ROut; ks_produced : list (I * T * ROut) }.

(* the updates [(p[i].0.1, p[i].1, p[i].2)], 243-244 and in discover_times *)
Definition unhash {R} (p : bridge H I T R) : list (I * T * R) := map (fun u => (snd (fst (fst u)), snd (fst u), snd u)) p.
(* Phase 1, 192-246: the states of the window's keys, what is kept for later, and what is left of the seeds.  [new_pending.insert] is
   called with ascending keys, so that it appends to the map. *)
Fixpoint stand_up (upper : list T) (pending : list (H * list T)) (keys : list H) (p_in : bridge H I T RIn) (p_out : bridge H I T ROut) (seeds : list (H * T))
  : option (list KeyState * list (H * list T) * list (H * T)) :=
  match keys with
  | [] => Some ([], [], seeds)
  | key :: keys =>
      let '(ins, p_in) := key_run (fun u => fst (fst (fst u))) key p_in in
      let '(outs, p_out) := key_run (fun u => fst (fst (fst u))) key p_out in
      let '(mine, seeds) := key_run fst key seeds in
      ' (moments, pended) <- discover_times upper (unhash ins) (pending_at pending key) (map snd mine) (map (fun u => snd (fst u)) outs);
      st <- (if is_nil moments then Some [] else
               let meets := suffix_meet moments in
               in_replay <- load_iter (unhash ins) (hd_error meets);
               out_replay <- load_iter (unhash outs) (hd_error meets);
               Some [{| ks_key := key; ks_moments := moments; ks_meets := meets; ks_in := in_replay; ks_out := out_replay; ks_produced := [] |}]);
      ' (states, new_pending, seeds) <- stand_up upper pending keys p_in p_out seeds;
      Some (st ++ states, (if is_nil pended then [] else [(key, pended)]) ++ new_pending, seeds)
  end.

(* 280-286, 287-293: what accumulates at a time *)
Definition accum_at {R} {DR : Diff R} (buffer : list (I * T * R)) (t : T) : list (I * R) :=
  consolidate (map (fun u => (fst (fst u), snd u)) (filter (fun u => tle (snd (fst u)) t) buffer)).
(* 264-278: a key takes its next moment *)
Definition key_step (st : KeyState) : option (KeyState * T) :=
  match ks_moments st, ks_meets st with
  | t :: moments, m :: meets =>
      in_replay <- vh_step_through (ks_in st) t;
      out_replay <- vh_step_through (ks_out st) t;
      Some ({| ks_key := ks_key st; ks_moments := moments; ks_meets := meets;
               ks_in := vh_advance_buffer_by in_replay m; ks_out := vh_advance_buffer_by out_replay m;
               ks_produced := consolidate (map (advance_by_meet m) (ks_produced st)) |}, t)
  | _, _ => None
  end.
(** what is gathered for the backend: [batch_keys], [in_ends], [in_all], [out_ends] and [out_all] *)
Record Crossing := { cx_keys : list H; cx_in_ends : list nat; cx_in : list (I * RIn); cx_out_ends : list nat; cx_out : list (I * ROut) }.
(* 263-304: the states, with the time of those that are [active]; whether some key [advanced]; and what is gathered *)
Fixpoint gather (states : list KeyState) (cx : Crossing) : option (list (KeyState * option T) * bool * Crossing) :=
  match states with
  | [] => Some ([], false, cx)
  | st :: states =>
      if is_nil (ks_moments st) then ' (rest, advanced, cx) <- gather states cx; Some ((st, None) :: rest, advanced, cx)
      else
        ' (st, t) <- key_step st;
        let in_accum := accum_at (vh_buffer (ks_in st)) t in
        let cur_out := accum_at (vh_buffer (ks_out st) ++ ks_produced st) t in
        if is_nil in_accum && is_nil cur_out then ' (rest, _, cx) <- gather states cx; Some ((st, None) :: rest, true, cx)
        else
          let ins := cx_in cx ++ in_accum in
          let outs := cx_out cx ++ cur_out in
          ' (rest, _, cx) <- gather states {| cx_keys := cx_keys cx ++ [ks_key st]; cx_in_ends := cx_in_ends cx ++ [length ins]; cx_in := ins;
                                              cx_out_ends := cx_out_ends cx ++ [length outs]; cx_out := outs |};
          Some ((st, Some t) :: rest, true, cx)
  end.
(* [tile_deltas[idx].push(...)], 323 *)
Fixpoint add_at {X} (i : nat) (xs : list X) (l : list (list X)) : list (list X) :=
  match l, i with
  | [], _ => []
  | y :: l, 0 => (y ++ xs) :: l
  | y :: l, Datatypes.S i => y :: add_at i xs l
  end.
(* [&corr[cstart..cend]] *)
Definition slice {X} (l : list X) (a b : nat) : option (list X) :=
  if (a <=? b) && (b <=? length l) then Some (firstn (b - a) (skipn a l)) else None.
(* 316-327: the corrections are applied; [ends] is what is left of [corr_ends] *)
Fixpoint apply_corrections (held : list T) (states : list (KeyState * option T)) (corr : list (I * ROut)) (ends : list nat) (cstart : nat)
  (deltas : list (list (H * I * T * ROut))) : option (list KeyState * list (list (H * I * T * ROut))) :=
  match states with
  | [] => Some ([], deltas)
  | (st, None) :: states => ' (states, deltas) <- apply_corrections held states corr ends cstart deltas; Some (st :: states, deltas)
  | (st, Some t) :: states =>
      match ends with
      | [] => None
      | cend :: ends =>
          ' (st, deltas) <- (if cstart =? cend then Some (st, deltas) else
                               idx <- rposition held t;
                               cs <- slice corr cstart cend;
                               Some ({| ks_key := ks_key st; ks_moments := ks_moments st; ks_meets := ks_meets st; ks_in := ks_in st; ks_out := ks_out st;
                                        ks_produced := ks_produced st ++ map (fun c => (fst c, t, snd c)) cs |},
                                     add_at idx (map (fun c => (ks_key st, fst c, t, snd c)) cs) deltas));
          ' (states, deltas) <- apply_corrections held states corr ends cend deltas;
          Some (st :: states, deltas)
      end
  end.
(* Phase 2, 255-328; [fuel] bounds the rounds *)
Fixpoint rounds (fuel : nat) (held : list T) (states : list KeyState) (deltas : list (list (H * I * T * ROut))) (s : S)
  : option (list (list (H * I * T * ROut)) * S) :=
  match fuel with
  | 0 => None
  | Datatypes.S fuel =>
      ' (states, advanced, cx) <- gather states {| cx_keys := []; cx_in_ends := []; cx_in := []; cx_out_ends := []; cx_out := [] |};
      if negb advanced then Some (deltas, s)
      else if is_nil (cx_keys cx) then rounds fuel held (map fst states) deltas s
      else
        let '(s, (corr, corr_ends)) := rb_corrections backend (cx_keys cx) (cx_in_ends cx) (cx_in cx) (cx_out_ends cx) (cx_out cx) s in
        ' (states, deltas) <- apply_corrections held states corr corr_ends 0 deltas;
        rounds fuel held states deltas s
  end.
(* 330-338 *)
Fixpoint emit_all (deltas : list (list (H * I * T * ROut))) (tile_of : list (option nat)) (s : S) : option S :=
  match deltas, tile_of with
  | [], _ => Some s
  | ds :: deltas, tile :: tile_of =>
      emit_all deltas tile_of (if is_nil ds then s else match tile with Some tile => rb_emit backend tile (consolidate (A:=H*I*T) ds) s | None => s end)
  | _ :: _, [] => None
  end.
(* 176-339; [fuel] bounds the windows *)
Fixpoint windows (fuel : nat) (inst : ReduceInstance) (upper held : list T) (pending : list (H * list T)) (tile_of : list (option nat)) (changed : list H)
  (cursor : nat) (seeds : list (H * T)) (s : S) : option (list (H * list T) * S) :=
  match fuel with
  | 0 => None
  | Datatypes.S fuel =>
      let '(s, cursor, window) := rb_next_window backend inst changed cursor s in
      match window with
      | None => Some ([], s)
      | Some w =>
          ' (states, new_pending, seeds) <- stand_up upper pending (w_keys w) (w_input w) (w_output w) seeds;
          ' (deltas, s) <- rounds (Datatypes.S (list_sum (map (fun st => length (ks_moments st)) states))) held states (map (fun _ => []) held) s;
          s <- emit_all deltas tile_of s;
          ' (rest, s) <- windows fuel inst upper held pending tile_of changed cursor seeds s;
          Some (new_pending ++ rest, s)
      end
  end.
(* 119-350: the batches with their times, the frontier, and the tactic's state: what is pending, and the backend *)
Definition proxy_retire (source : list B1) (output : list B2) (input : list B1) (lower upper held : list T) (pending : list (H * list T)) (s : S)
  : option (list (T * B2) * list T * (list (H * list T) * S)) :=
  if forallb (fun t => ac_less_equal upper t) held then Some ([], held, (pending, s))
  else
    let inst := {| ri_source := source; ri_input := input; ri_output := output; ri_lower := lower |} in
    let seeds := rb_seed_times backend inst s in
    let changed := sort_dedup (map fst seeds ++ map fst pending) in
    if is_nil changed then Some ([], [], ([], s))
    else
      ' (descs, tile_held, tile_of) <- tile_descriptions lower upper held;
      let s := rb_begin backend descs s in
      ' (pending, s) <- windows (Datatypes.S (length changed)) inst upper held pending tile_of changed 0 seeds s;
      let '(s, batches) := rb_finish backend s in
      Some (List.combine tile_held batches, ac_from (flat_map snd pending), (pending, s)).
End ProxyReduce.
Arguments ReduceInstance : clear implicits. Arguments ReduceWindow : clear implicits. Arguments ReduceBackend : clear implicits. Arguments KeyState : clear implicits.
