(** * Model of differential-dataflow/src/operators/arrange/agent.rs and writer.rs

    Handles on a shared trace, its writer, and the queues of its listeners.  [None] is a panic.
    Reference counts become: the box lives as long as a handle does, the list of queues as long as the
    writer.  Logging and activations are not modelled. *)
From Verif Require Export Model.SpineM Model.CaptureM.

Section Agent.
Context {B M T : Type} {TT : Time T}.
Variable ops : BatchOps B M T.

(** ** agent.rs:531-586 TraceBox *)
Record TraceBox := { bx_logical : ma_counts T; bx_physical : ma_counts T; bx_trace : Spine B M T }.
Definition plus_one (F : list T) : list (T * Z) := map (fun t => (t, 1%Z)) F.
Definition minus_one (F : list T) : list (T * Z) := map (fun t => (t, (-1)%Z)) F.
(* 554-567 *)
Definition box_new (trace : Spine B M T) : TraceBox := {|
  bx_logical := ma_update_iter [] (plus_one (logical trace));
  bx_physical := ma_update_iter [] (plus_one (physical trace));
  bx_trace := trace |}.
(* 573-577 *)
Definition adjust_logical (b : TraceBox) (lower upper : list T) : TraceBox :=
  let counts := ma_update_iter (ma_update_iter (bx_logical b) (plus_one upper)) (minus_one lower) in
  {| bx_logical := counts; bx_physical := bx_physical b; bx_trace := set_logical (bx_trace b) (ma_frontier counts) |}.
(* 580-584 *)
Definition adjust_physical (b : TraceBox) (lower upper : list T) : option TraceBox :=
  let counts := ma_update_iter (ma_update_iter (bx_physical b) (plus_one upper)) (minus_one lower) in
  trace <- set_physical ops (bx_trace b) (ma_frontier counts);
  Some {| bx_logical := bx_logical b; bx_physical := counts; bx_trace := trace |}.

(** ** agent.rs:27-66 TraceAgent: the frontiers a handle holds *)
Record Agent := { ag_logical : list T; ag_physical : list T }.
(* 43-50 *)
Definition agent_set_logical (b : TraceBox) (a : Agent) (frontier : list T) : TraceBox * Agent :=
  let temp := antichain_join (ag_logical a) frontier in
  (adjust_logical b (ag_logical a) temp, {| ag_logical := temp; ag_physical := ag_physical a |}).
(* 54-61 *)
Definition agent_set_physical (b : TraceBox) (a : Agent) (frontier : list T) : option (TraceBox * Agent) :=
  let temp := antichain_join (ag_physical a) frontier in
  b <- adjust_physical b (ag_physical a) temp;
  Some (b, {| ag_logical := ag_logical a; ag_physical := temp |}).
(* 483-507 clone *)
Definition agent_clone (b : TraceBox) (a : Agent) : option (TraceBox * Agent) :=
  let b := adjust_logical b [] (ag_logical a) in
  b <- adjust_physical b [] (ag_physical a);
  Some (b, a).
(* 509-523 drop *)
Definition agent_drop (b : TraceBox) (a : Agent) : option TraceBox :=
  let b := adjust_logical b (ag_logical a) [] in
  adjust_physical b (ag_physical a) [].

(** ** arrange/mod.rs TraceReplayInstruction, and listeners' queues *)
Inductive instruction := IFrontier (F : list T) | IBatch (b : B) (hint : option T).
(** a queue: the instructions its owner has taken, and those waiting *)
Record Listener := { l_taken : list instruction; l_queue : list instruction }.
Definition push_back (is : list instruction) (l : Listener) : Listener := {| l_taken := l_taken l; l_queue := l_queue l ++ is |}.
(* agent.rs:110-137 new_listener: the initial contents of the queue *)
Definition listener_start (trace : Spine B M T) : list instruction :=
  let bs := map_batches trace in
  let upper := fold_left (fun _ b => Some (d_upper (b_desc ops b))) bs None in
  map (fun b => IBatch b (Some tmin)) bs ++ match upper with Some up => [IFrontier up] | None => [] end.

(** ** All of it: handles and queues by number; [None] once dropped *)
Record World := {
  w_box : option TraceBox;
  w_agents : list (option Agent);
  w_writer : option (list T);                        (** the writer's upper frontier *)
  w_listeners : list (option (bool * Listener))      (** whether it is among the writer's queues *)
}.
(* agent.rs:73-103 new *)
Definition world_new (trace : Spine B M T) : World :=
  let b := box_new trace in
  {| w_box := Some b; w_agents := [Some {| ag_logical := ma_frontier (bx_logical b); ag_physical := ma_frontier (bx_physical b) |}];
     w_writer := Some (ac_from [tmin]); w_listeners := [] |}.

Definition set_nth {A} (l : list A) (i : nat) (x : A) : list A := firstn i l ++ x :: skipn (S i) l.
Definition agent_at (w : World) (i : nat) : option Agent := match nth_error (w_agents w) i with Some (Some a) => Some a | _ => None end.
Definition live (w : World) : list Agent := flat_map (fun o => match o with Some a => [a] | None => [] end) (w_agents w).

Inductive command :=
| CClone (i : nat) | CDrop (i : nat) | CSetLogical (i : nat) (F : list T) | CSetPhysical (i : nat) (F : list T)
| CInsert (b : B) (hint : option T) | CSeal (up : list T) | CDropWriter | CExert (answer : option nat)
| CListen (i : nat) | CTake (j : nat) | CDropListener (j : nat).

(* writer.rs:55-82 insert *)
Definition writer_insert (w : World) (up : list T) (b : B) (hint : option T) : option World :=
  if negb (ac_eqb up (d_lower (b_desc ops b))) then None
  else if ac_eqb (d_lower (b_desc ops b)) (d_upper (b_desc ops b)) then None
  else
    let queues := map (fun o => match o with
                                | Some (true, l) => Some (true, push_back [IBatch b hint; IFrontier (d_upper (b_desc ops b))] l)
                                | o => o
                                end) (w_listeners w) in
    box <- match w_box w with
           | Some bx => trace <- spine_insert ops (bx_trace bx) b;
                        Some (Some {| bx_logical := bx_logical bx; bx_physical := bx_physical bx; bx_trace := trace |})
           | None => Some None
           end;
    Some {| w_box := box; w_agents := w_agents w; w_writer := Some (d_upper (b_desc ops b)); w_listeners := queues |}.
(* writer.rs:85-89 seal; also what was inserted *)
Definition writer_seal (w : World) (at_ up : list T) : option (World * list (B * option T)) :=
  if negb (ac_eqb at_ up) then
    b <- b_empty ops at_ up; w <- writer_insert w at_ b None; Some (w, [(b, None)])
  else Some (w, []).

(** A command; also the batches inserted by it, with their hints.  Commands on what has been dropped can
    not be given, and do nothing here. *)
Definition w_step (w : World) (c : command) : option (World * list (B * option T)) :=
  match c with
  | CClone i =>
      match w_box w, agent_at w i with
      | Some bx, Some a => ' (bx, a') <- agent_clone bx a;
          Some ({| w_box := Some bx; w_agents := w_agents w ++ [Some a']; w_writer := w_writer w; w_listeners := w_listeners w |}, [])
      | _, _ => Some (w, [])
      end
  | CDrop i =>
      match w_box w, agent_at w i with
      | Some bx, Some a => bx <- agent_drop bx a;
          let agents := set_nth (w_agents w) i None in
          Some ({| w_box := if existsb (fun o => match o with Some _ => true | None => false end) agents then Some bx else None;
                   w_agents := agents; w_writer := w_writer w; w_listeners := w_listeners w |}, [])
      | _, _ => Some (w, [])
      end
  | CSetLogical i F =>
      match w_box w, agent_at w i with
      | Some bx, Some a => let (bx, a') := agent_set_logical bx a F in
          Some ({| w_box := Some bx; w_agents := set_nth (w_agents w) i (Some a'); w_writer := w_writer w; w_listeners := w_listeners w |}, [])
      | _, _ => Some (w, [])
      end
  | CSetPhysical i F =>
      match w_box w, agent_at w i with
      | Some bx, Some a => ' (bx, a') <- agent_set_physical bx a F;
          Some ({| w_box := Some bx; w_agents := set_nth (w_agents w) i (Some a'); w_writer := w_writer w; w_listeners := w_listeners w |}, [])
      | _, _ => Some (w, [])
      end
  | CInsert b hint =>
      match w_writer w with
      | Some up => w <- writer_insert w up b hint; Some (w, [(b, hint)])
      | None => Some (w, [])
      end
  | CSeal up =>
      match w_writer w with
      | Some at_ => writer_seal w at_ up
      | None => Some (w, [])
      end
  | CDropWriter =>                                                               (* writer.rs:92-96 *)
      match w_writer w with
      | Some at_ => ' (w, bs) <- writer_seal w at_ [];
          Some ({| w_box := w_box w; w_agents := w_agents w; w_writer := None;
                   w_listeners := map (fun o => match o with Some (_, l) => Some (false, l) | None => None end) (w_listeners w) |}, bs)
      | None => Some (w, [])
      end
  | CExert answer =>                                                             (* writer.rs:43-47 *)
      match w_writer w, w_box w with
      | Some _, Some bx => trace <- spine_exert ops (bx_trace bx) answer;
          Some ({| w_box := Some {| bx_logical := bx_logical bx; bx_physical := bx_physical bx; bx_trace := trace |};
                   w_agents := w_agents w; w_writer := w_writer w; w_listeners := w_listeners w |}, [])
      | _, _ => Some (w, [])
      end
  | CListen i =>                                                                 (* agent.rs:110-137 *)
      match w_box w, agent_at w i with
      | Some bx, Some _ =>
          Some ({| w_box := w_box w; w_agents := w_agents w; w_writer := w_writer w;
                   w_listeners := w_listeners w ++ [Some (match w_writer w with Some _ => true | None => false end,
                                                          {| l_taken := []; l_queue := listener_start (bx_trace bx) |})] |}, [])
      | _, _ => Some (w, [])
      end
  | CTake j =>
      match nth_error (w_listeners w) j with
      | Some (Some (r, l)) =>
          Some ({| w_box := w_box w; w_agents := w_agents w; w_writer := w_writer w;
                   w_listeners := set_nth (w_listeners w) j (Some (r, {| l_taken := l_taken l ++ l_queue l; l_queue := [] |})) |}, [])
      | _ => Some (w, [])
      end
  | CDropListener j =>
      Some ({| w_box := w_box w; w_agents := w_agents w; w_writer := w_writer w;
               w_listeners := if j <? length (w_listeners w) then set_nth (w_listeners w) j None else w_listeners w |}, [])
  end.
Fixpoint w_run (w : World) (l : list command) : option (World * list (B * option T)) :=
  match l with
  | [] => Some (w, [])
  | c :: l => ' (w, bs) <- w_step w c; ' (w, bs') <- w_run w l; Some (w, bs ++ bs')
  end.

(** ** agent.rs:270-318 import_core: the operator reading a queue *)
(* timely 0.31 CapabilitySet: [delayed] needs a capability at or before the time, [downgrade] one for
   every element of the frontier; both panic otherwise *)
Definition cs_delayed (caps : list T) (t : T) : option T := if ac_less_equal caps t then Some t else None.
Definition cs_downgrade (caps F : list T) : option (list T) := if forallb (ac_less_equal caps) F then Some F else None.
(* 293-309: capabilities held and messages sent *)
Fixpoint import_core (caps : list T) (is : list instruction) : option (list T * list (T * B)) :=
  match is with
  | [] => Some (caps, [])
  | IFrontier F :: is => caps <- cs_downgrade caps F; import_core caps is
  | IBatch b hint :: is =>
      match hint with
      | Some time =>
          if nonempty ops b then
            delayed <- cs_delayed caps time;
            ' (caps, out) <- import_core caps is; Some (caps, (delayed, b) :: out)
          else import_core caps is
      | None => import_core caps is
      end
  end.
(* 421-456 import_frontier_core: the batches sent are to be wrapped by BatchFrontier with [since] and [until] *)
Fixpoint import_frontier_core (until : list T) (caps : list T) (is : list instruction) : option (list T * list (T * B)) :=
  match is with
  | [] => Some (caps, [])
  | i :: is =>
      if match caps with [] => true | _ => false end then import_frontier_core until caps is
      else match i with
           | IFrontier F =>
               caps <- (if ac_le until F then cs_downgrade caps [] else cs_downgrade caps F); import_frontier_core until caps is
           | IBatch b hint =>
               match hint with
               | Some time =>
                   if nonempty ops b then
                     delayed <- cs_delayed caps time;
                     ' (caps, out) <- import_frontier_core until caps is; Some (caps, (delayed, b) :: out)
                   else import_frontier_core until caps is
               | None => import_frontier_core until caps is
               end
           end
  end.
End Agent.
Arguments TraceBox : clear implicits. Arguments Agent : clear implicits. Arguments instruction : clear implicits.
Arguments Listener : clear implicits. Arguments World : clear implicits. Arguments command : clear implicits.
