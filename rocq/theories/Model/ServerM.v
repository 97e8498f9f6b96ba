(** Model of interactive/src/server.rs: the registry of a live server on one worker, and of the commands that
    examples/ddir_server.rs gives it.  [None] is a panic. *)
From Coq Require Import String Ascii DecimalString DecimalN.
From Verif Require Export Model.RenderM.
Local Open Scope string_scope.

(** ** Names *)

(* str::strip_prefix *)
Fixpoint strip_prefix (p s : string) : option string :=
  match p, s with
  | EmptyString, _ => Some s
  | String a p, String b s => if Ascii.eqb a b then strip_prefix p s else None
  | String _ _, EmptyString => None
  end.
(* str::split_once for a single character *)
Fixpoint split_once (c : ascii) (s : string) : option (string * string) :=
  match s with
  | EmptyString => None
  | String a s =>
      if Ascii.eqb a c then Some (EmptyString, s) else
      ' (x, y) <- split_once c s; Some (String a x, y)
  end.
(* str::split for a single character: never empty *)
Fixpoint split_on (c : ascii) (s : string) : list string :=
  match s with
  | EmptyString => [EmptyString]
  | String a s =>
      if Ascii.eqb a c then EmptyString :: split_on c s else
      match split_on c s with x :: xs => String a x :: xs | [] => [String a EmptyString] end
  end.
(* char::is_whitespace; only for ASCII *)
Definition is_space (c : ascii) : bool :=
  let n := nat_of_ascii c in ((9 <=? n) && (n <=? 13) || (n =? 32))%nat.
(* str::trim_start, str::trim *)
Fixpoint trim_start (s : string) : string :=
  match s with String a s' => if is_space a then trim_start s' else s | EmptyString => EmptyString end.
Fixpoint trim_end (s : string) : string :=
  match s with
  | EmptyString => EmptyString
  | String a s => match trim_end s with EmptyString => if is_space a then EmptyString else String a EmptyString | s => String a s end
  end.
Definition trim (s : string) : string := trim_end (trim_start s).
(* str::parse::<u64>, and ::<usize> on a 64 bit machine: digits, perhaps after a plus sign, below 2^64 *)
Definition parse_u64 (s : string) : option N :=
  let s := match s with String "+" s => s | _ => s end in
  match s with
  | EmptyString => None
  | _ => u <- NilEmpty.uint_of_string s; let n := N.of_uint u in if (n <? Z.to_N two64)%N then Some n else None
  end.
(* format!("{}", n) *)
Definition show (n : N) : string := NilEmpty.string_of_uint (N.to_uint n).

(* server.rs:72-84 *)
Inductive Recipe := Random (nodes edges arity seed : N) | Iota (n : N).
(* 90-100: the loop over the parameters; the accumulator holds nodes, edges, arity and seed *)
Fixpoint parse_params (kvs : list string) (a : option N * option N * N * N) : option (option N * option N * N * N) :=
  match kvs with
  | [] => Some a
  | kv :: kvs =>
      ' (k, v) <- split_once "=" kv;
      let '(nodes, edges, arity, seed) := a in
      let k := trim k in
      if String.eqb k "nodes" then n <- parse_u64 (trim v); parse_params kvs (Some n, edges, arity, seed) else
      if String.eqb k "edges" then n <- parse_u64 (trim v); parse_params kvs (nodes, Some n, arity, seed) else
      if String.eqb k "arity" then n <- parse_u64 (trim v); parse_params kvs (nodes, edges, n, seed) else
      if String.eqb k "seed" then n <- parse_u64 (trim v); parse_params kvs (nodes, edges, arity, n) else
      None
  end.
(* 88-107 Recipe::parse *)
Definition recipe_parse (name : string) : option Recipe :=
  match strip_prefix "random:" name with
  | Some params =>
      ' (nodes, edges, arity, seed) <- parse_params (split_on "," params) (None, None, 2%N, 0%N);
      nodes <- nodes; edges <- edges; Some (Random nodes edges arity seed)
  | None =>
      match strip_prefix "iota:" name with
      | Some n => n <- parse_u64 (trim n); Some (Iota n)
      | None => None
      end
  end.
(* 111-117 *)
Definition canonical (r : Recipe) : string :=
  match r with
  | Random nodes edges arity seed =>
      "random:nodes=" ++ show nodes ++ ",edges=" ++ show edges ++ ",arity=" ++ show arity ++ ",seed=" ++ show seed
  | Iota n => "iota:" ++ show n
  end.
(* 120-122 *)
Definition rows_len (r : Recipe) : nat := match r with Random _ edges _ _ => N.to_nat edges | Iota n => N.to_nat n end.
(* [as i64] of a u64 *)
Definition as_i64 (n : Z) : Z := if (n <? two64 / 2)%Z then n else (n - two64)%Z.
(* lib.rs:72-80 gen_row_seeded; a remainder by zero panics *)
Definition gen_row_seeded (seed edge_index nodes : N) (arity : nat) : option row :=
  let base := as_u64 (Z.of_N edge_index * 31 + Z.of_N seed * 0x9e3779b97f4a7c15) in
  fields <- mapO (fun col => if (nodes =? 0)%N then None else Some (VInt (as_i64 (hash_u64 (as_u64 (base + Z.of_nat col)) mod Z.of_N nodes)))) (List.seq 0 arity);
  Some (VTuple fields, VTuple []).
(* server.rs:125-130 *)
Definition recipe_row (r : Recipe) (e : nat) : option row :=
  match r with
  | Random nodes _ arity seed => gen_row_seeded seed (N.of_nat e) nodes (N.to_nat arity)
  | Iota _ => Some (VTuple [VInt (as_i64 (Z.of_nat e))], VTuple [])
  end.
(* 136 *)
Inductive Origin := OProgram | OGenerated | OClock.
(* 139 *)
Definition clock_row (t : nat) : Value := VTuple [VInt (as_i64 (Z.of_nat t))].
(* 144-146 *)
Definition canonical_source_name (name : string) : string :=
  match recipe_parse name with Some r => canonical r | None => name end.

(** ** Maps: HashMap as an association list *)
Section Maps.
Context {K V : Type} (keq : forall a b : K, {a = b} + {a <> b}).
Fixpoint mget (m : list (K * V)) (k : K) : option V :=
  match m with [] => None | (k', v) :: m => if keq k' k then Some v else mget m k end.
Definition mdel (m : list (K * V)) (k : K) : list (K * V) := filter (fun e => if keq (fst e) k then false else true) m.
Definition mput (m : list (K * V)) (k : K) (v : V) : list (K * V) := (k, v) :: mdel m k.
Definition mhas (m : list (K * V)) (k : K) : bool := match mget m k with Some _ => true | None => false end.
End Maps.
Notation sget := (mget string_dec). Notation sput := (mput string_dec). Notation sdel := (mdel string_dec). Notation shas := (mhas string_dec).
Notation nget := (mget Nat.eq_dec). Notation nput := (mput Nat.eq_dec). Notation ndel := (mdel Nat.eq_dec).

(** ** The state *)

(* The server's InputSession (differential-dataflow/src/input.rs, modelled in full in InputM): its time and
   the updates it was given.  Buffering is left out: every advance is followed by a flush. *)
Record Session := { se_time : nat; se_rows : list (row * nat * Z) }.
Definition new_session : Session := {| se_time := 0; se_rows := [] |}.
(* input.rs:229-239 asserts the time *)
Definition session_update (r : row) (t : nat) (d : Z) (s : Session) : option Session :=
  if (se_time s <=? t)%nat then Some {| se_time := se_time s; se_rows := se_rows s ++ [(r, t, d)] |} else None.
(* input.rs:258-262 asserts the time *)
Definition session_advance (t : nat) (s : Session) : option Session :=
  if (se_time s <=? t)%nat then Some {| se_time := t; se_rows := se_rows s |} else None.

(* server.rs:174-191; the probe is left out: [tick] is taken to return, once every program has caught up *)
Record Installed := {
  in_inputs : list (nat * Session);
  in_imports : list string;
  in_exports : list string;
  in_dataflow : nat;
  in_origin : Origin }.
(* 63-65 ServerTrace: which dataflow maintains it, and the frontier of its logical compaction *)
Record Trace := { tr_dataflow : nat; tr_since : nat }.
(* 194-203 *)
Record Server := {
  sv_traces : list (string * Trace);
  sv_programs : list (string * Installed);
  sv_importers : list (string * nat);
  sv_epoch : nat }.
(* timely's Worker, as far as it is used: which of the workers it is, the number of the next dataflow, and
   the running dataflows of the server with what each reads: a dataflow, and the name it imported it by. *)
Record Worker := {
  wk_index : nat; wk_peers : nat;
  wk_next : nat;
  wk_running : list (nat * list (string * nat)) }.
(* timely: Worker::dataflow takes the next number *)
Definition dataflow (reads : list (string * nat)) (wk : Worker) : Worker :=
  {| wk_index := wk_index wk; wk_peers := wk_peers wk; wk_next := S (wk_next wk); wk_running := nput (wk_running wk) (wk_next wk) reads |}.
(* timely: Worker::drop_dataflow *)
Definition drop_dataflow (id : nat) (wk : Worker) : Worker :=
  {| wk_index := wk_index wk; wk_peers := wk_peers wk; wk_next := wk_next wk; wk_running := ndel (wk_running wk) id |}.

(* 207-214 *)
Definition server_new : Server := {| sv_traces := []; sv_programs := []; sv_importers := []; sv_epoch := 0 |}.

(* the part of install_generated and install_clock that registers the source: 337-346, 355-369, 375-384, 389-403 *)
Definition register_source (name : string) (input : Session) (o : Origin) (sv : Server) (wk : Worker) : option (Server * Worker) :=
  input <- session_advance (sv_epoch sv) input;
  Some ({| sv_traces := sput (sv_traces sv) name {| tr_dataflow := wk_next wk; tr_since := 0 |};
           sv_programs := sput (sv_programs sv) name {| in_inputs := [(0%nat, input)]; in_imports := []; in_exports := [name]; in_dataflow := wk_next wk; in_origin := o |};
           sv_importers := sv_importers sv; sv_epoch := sv_epoch sv |}, dataflow [] wk).
(* 348-354: the rows of this worker *)
Fixpoint shard (index peers : nat) (r : Recipe) (es : list nat) (input : Session) : option Session :=
  match es with
  | [] => Some input
  | e :: es =>
      if (e mod peers =? index)%nat
      then r' <- recipe_row r e; input <- session_update r' 0 1%Z input; shard index peers r es input
      else shard index peers r es input
  end.
(* 336-369 *)
Definition install_generated (name : string) (r : Recipe) (sv : Server) (wk : Worker) : option (Server * Worker) :=
  input <- shard (wk_index wk) (wk_peers wk) r (List.seq 0 (rows_len r)) new_session;
  register_source name input OGenerated sv wk.
(* 374-404 *)
Definition install_clock (sv : Server) (wk : Worker) : option (Server * Worker) :=
  input <- (if (wk_index wk =? 0)%nat then session_update (clock_row (sv_epoch sv), VTuple []) (sv_epoch sv) 1%Z new_session else Some new_session);
  register_source "clock" input OClock sv wk.

Inductive outcome := Done | Refused.
(* 239-252: the first loop of install *)
Fixpoint resolve_imports (imps : list Import) (sv : Server) (wk : Worker) : option (Server * Worker * outcome) :=
  match imps with
  | [] => Some (sv, wk, Done)
  | im :: imps =>
      match im_from im with
      | STrace t =>
          let key := canonical_source_name t in
          if shas (sv_traces sv) key then resolve_imports imps sv wk else
          if String.eqb key "clock" then ' (sv, wk) <- install_clock sv wk; resolve_imports imps sv wk else
          match recipe_parse key with
          | Some r => ' (sv, wk) <- install_generated key r sv wk; resolve_imports imps sv wk
          | None => Some (sv, wk, Refused)
          end
      | _ => resolve_imports imps sv wk
      end
  end.
(* 259-261 *)
Definition import_names (imps : list Import) : list string :=
  flat_map (fun im => match im_from im with STrace t => [canonical_source_name t] | _ => [] end) imps.
(* 275-291: a handle for every positional input; what is read from every trace *)
Fixpoint bind_imports (traces : list (string * Trace)) (imps : list Import) : option (list (nat * Session) * list (string * nat)) :=
  match imps with
  | [] => Some ([], [])
  | im :: imps =>
      match im_from im with
      | SInput n => ' (ins, reads) <- bind_imports traces imps; Some ((n, new_session) :: ins, reads)
      | STrace t =>
          let key := canonical_source_name t in
          tr <- sget traces key; ' (ins, reads) <- bind_imports traces imps; Some (ins, (key, tr_dataflow tr) :: reads)
      | SParent _ => None
      end
  end.
(* 315-320 *)
Fixpoint place_inputs (epoch : nat) (ins : list (nat * Session)) (by_pos : list (nat * Session)) : option (list (nat * Session)) :=
  match ins with
  | [] => Some by_pos
  | (pos, h) :: ins => h <- session_advance epoch h; place_inputs epoch ins (nput by_pos pos h)
  end.
(* 309-311 *)
Definition publish (id : nat) (names : list string) (traces : list (string * Trace)) : list (string * Trace) :=
  fold_left (fun m x => sput m x {| tr_dataflow := id; tr_since := 0 |}) names traces.
(* 312-314 *)
Definition count_of (m : list (string * nat)) (t : string) : nat := match sget m t with Some c => c | None => 0 end.
Definition count_up (names : list string) (importers : list (string * nat)) : list (string * nat) :=
  fold_left (fun m t => sput m t (S (count_of m t))) names importers.
(* 232-330; the body of the program is rendered by [render_tree], whose meaning is RenderM's *)
Definition install (name : string) (root : Scope) (sv : Server) (wk : Worker) : option (Server * Worker * outcome) :=
  if shas (sv_programs sv) name then Some (sv, wk, Refused) else
  ' (sv, wk, o) <- resolve_imports (sc_imports root) sv wk;
  match o with
  | Refused => Some (sv, wk, Refused)
  | Done =>
      let exports := map ex_name (sc_exports root) in
      if existsb (shas (sv_traces sv)) exports then Some (sv, wk, Refused) else
      let imports := import_names (sc_imports root) in
      let id := wk_next wk in
      ' (ins, reads) <- bind_imports (sv_traces sv) (sc_imports root);
      by_pos <- place_inputs (sv_epoch sv) ins [];
      Some ({| sv_traces := publish id exports (sv_traces sv);
               sv_programs := sput (sv_programs sv) name {| in_inputs := by_pos; in_imports := imports; in_exports := exports; in_dataflow := id; in_origin := OProgram |};
               sv_importers := count_up imports (sv_importers sv);
               sv_epoch := sv_epoch sv |}, dataflow reads wk, Done)
  end.

Definition set_programs (ps : list (string * Installed)) (sv : Server) : Server :=
  {| sv_traces := sv_traces sv; sv_programs := ps; sv_importers := sv_importers sv; sv_epoch := sv_epoch sv |}.
Definition set_inputs (ins : list (nat * Session)) (p : Installed) : Installed :=
  {| in_inputs := ins; in_imports := in_imports p; in_exports := in_exports p; in_dataflow := in_dataflow p; in_origin := in_origin p |}.
(* 410-424 *)
Definition feed (prog : string) (input : nat) (key val : Value) (time : option nat) (diff : Z) (sv : Server) : option (Server * outcome) :=
  let t := match time with Some t => t | None => sv_epoch sv end in
  if (t <? sv_epoch sv)%nat then Some (sv, Refused) else
  let prog := canonical_source_name prog in
  match sget (sv_programs sv) prog with
  | None => Some (sv, Refused)
  | Some p =>
      match in_origin p with
      | OProgram =>
          match nget (in_inputs p) input with
          | None => Some (sv, Refused)
          | Some h => h <- session_update (key, val) t diff h;
                      Some (set_programs (sput (sv_programs sv) prog (set_inputs (nput (in_inputs p) input h) p)) sv, Done)
          end
      | _ => Some (sv, Refused)
      end
  end.

(* 455-468 and 478: what [peek] prints of the updates [us] that reach worker 0, at epoch [epoch] *)
Fixpoint bump (r : row) (d : Z) (m : list (row * Z)) : list (row * Z) :=
  match m with
  | [] => [(r, d)]
  | (r', d') :: m => if eqb r' r then (r', (d' + d)%Z) :: m else (r', d') :: bump r d m
  end.
Fixpoint place_row (x : row * Z) (l : list (row * Z)) : list (row * Z) :=
  match l with
  | [] => [x]
  | y :: l => match cmp (fst x) (fst y) with Gt => y :: place_row x l | _ => x :: y :: l end
  end.
Definition peek_rows (epoch : nat) (key : option Value) (us : list (row * nat * Z)) : list (row * Z) :=
  let us := match key with Some k => filter (fun u => eqb (fst (fst (fst u))) k) us | None => us end in
  let m := fold_left (fun m u => if (snd (fst u) <? epoch)%nat then bump (fst (fst u)) (snd u) m else m) us [] in
  fold_right place_row [] (filter (fun x => negb (Z.eqb (snd x) 0)) m).
(* 433-487: the registry is not changed; a dataflow is made and removed *)
Definition peek (name : string) (sv : Server) (wk : Worker) : option (Server * Worker * outcome) :=
  let name := canonical_source_name name in
  match sget (sv_traces sv) name with
  | None => Some (sv, wk, Refused)
  | Some tr => Some (sv, drop_dataflow (wk_next wk) (dataflow [(name, tr_dataflow tr)] wk), Done)
  end.

(* 507-511 *)
Definition count_down (names : list string) (importers : list (string * nat)) : list (string * nat) :=
  fold_left (fun m t => match sget m t with Some c => sput m t (pred c) | None => m end) names importers.
(* 495-520 *)
Definition drop_program (name : string) (sv : Server) (wk : Worker) : option (Server * Worker * outcome) :=
  let name := canonical_source_name name in
  match sget (sv_programs sv) name with
  | None => Some (sv, wk, Refused)
  | Some p =>
      if existsb (fun ex => (0 <? count_of (sv_importers sv) ex)%nat) (in_exports p) then Some (sv, wk, Refused) else
      Some ({| sv_traces := fold_left sdel (in_exports p) (sv_traces sv);
               sv_programs := sdel (sv_programs sv) name;
               sv_importers := count_down (in_imports p) (sv_importers sv);
               sv_epoch := sv_epoch sv |}, drop_dataflow (in_dataflow p) wk, Done)
  end.

(* 529-542: one program *)
Definition tick_program (w0 : bool) (cur : nat) (p : Installed) : option Installed :=
  ins <- (match in_origin p with
          | OClock =>
              if w0 then
                match nget (in_inputs p) 0 with
                | Some h => h <- session_update (clock_row cur, VTuple []) (S cur) (-1)%Z h;
                            h <- session_update (clock_row (S cur), VTuple []) (S cur) 1%Z h;
                            Some (nput (in_inputs p) 0 h)
                | None => Some (in_inputs p)
                end
              else Some (in_inputs p)
          | _ => Some (in_inputs p)
          end);
  ins <- mapO (fun e => h <- session_advance (S cur) (snd e); Some (fst e, h)) ins;
  Some (set_inputs ins p).
(* 565-569; TraceAgent joins the frontiers it is given (trace agent, C18) *)
Definition compact_trace (f : nat) (tr : Trace) : Trace :=
  {| tr_dataflow := tr_dataflow tr; tr_since := Nat.max (tr_since tr) f |}.
(* 525-570; waiting for the probes is left out *)
Definition tick (sv : Server) (wk : Worker) : option Server :=
  let next := S (sv_epoch sv) in
  ps <- mapO (fun e => p <- tick_program (wk_index wk =? 0)%nat (sv_epoch sv) (snd e); Some (fst e, p)) (sv_programs sv);
  Some {| sv_traces := map (fun e => (fst e, compact_trace (next - 1) (snd e))) (sv_traces sv);
          sv_programs := ps; sv_importers := sv_importers sv; sv_epoch := next |}.

(* 153-172; List, Help and Exit leave the state alone *)
Inductive Command :=
| Install (name : string) (root : Scope)
| Feed (prog : string) (input : nat) (key val : Value) (time : option nat) (diff : Z)
| Tick
| Drop (name : string)
| Peek (trace : string) (key : option Value).
(* examples/ddir_server.rs:159-195 dispatch *)
Definition dispatch (c : Command) (sv : Server) (wk : Worker) : option (Server * Worker * outcome) :=
  match c with
  | Install name root => install name root sv wk
  | Feed prog input key val time diff =>
      if (wk_index wk =? 0)%nat then ' (sv, o) <- feed prog input key val time diff sv; Some (sv, wk, o) else Some (sv, wk, Done)
  | Tick => sv <- tick sv wk; Some (sv, wk, Done)
  | Drop name => drop_program name sv wk
  | Peek trace _ => peek trace sv wk
  end.
(* examples/ddir_server.rs:250-255: the commands that the sequencer gives, in order *)
Fixpoint serve (cs : list Command) (sv : Server) (wk : Worker) : option (Server * Worker) :=
  match cs with
  | [] => Some (sv, wk)
  | c :: cs => ' (sv, wk, _) <- dispatch c sv wk; serve cs sv wk
  end.
