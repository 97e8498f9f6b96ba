(** * Model of the join operator: differential-dataflow/src/operators/join.rs:83-381 (join_with_tactic)
    [None] is a panic: a failed assertion, or a trace that cannot be read as asked. *)
From Verif Require Export Model.SpineM.

(** join.rs:28-56 JoinTactic: [jt_prep] prepares work from batches of both inputs, which input is fresh
    ([true] for Input0) and the time of the capability; [jt_next] is Iterator::next of the work. *)
Record JoinTactic (B1 B2 T W X : Type) := {
  jt_prep : list B1 -> list B2 -> bool -> T -> option W;
  jt_next : W -> option (W * option (list X))
}.
Arguments jt_prep {B1 B2 T W X}. Arguments jt_next {B1 B2 T W X}.

Section Driver.
Context {B1 M1 B2 M2 T W X : Type} {TT : Time T}.
Variable ops1 : BatchOps B1 M1 T.
Variable ops2 : BatchOps B2 M2 T.
Variable tactic : JoinTactic B1 B2 T W X.

(** The operator's state for one input: join.rs:103-104 acknowledged, 160-161 preload_upper, 178-179 the
    droppable handle, of which the logical and physical compaction frontiers are kept (agent.rs:30-33). *)
Record jside := { js_ack : list T; js_preload : list T; js_trace : option (list T * list T) }.
(** join.rs:110-111 the queues of deferred work *)
Record jstate := { j_side1 : jside; j_side2 : jside; j_todo0 : list (T * W); j_todo1 : list (T * W) }.

(* join.rs:168-177: each captured batch of the second trace is prepared against the first trace *)
Fixpoint prep_all (s1 : Spine B1 M1 T) (ack1 : list T) (cap : T) (bs : list B2) : option (list (T * W)) :=
  match bs with
  | [] => Some []
  | b :: bs =>
      st <- batches_through ops1 s1 ack1;
      w <- jt_prep tactic st [b] false cap;
      r <- prep_all s1 ack1 cap bs;
      Some ((cap, w) :: r)
  end.

(* join.rs:113-179: start-up; [cap] is the time of the initial capability, [h1] and [h2] the compaction
   frontiers of the handles.  [map_batches] sets the acknowledged frontier to each batch's upper in turn,
   which is [read_upper] (trace/mod.rs:142-148). *)
Definition j_start (s1 : Spine B1 M1 T) (s2 : Spine B2 M2 T) (h1 h2 : list T * list T) (cap : T) : option jstate :=
  let ack1 := read_upper ops1 s1 in
  if negb (ac_le (snd h1) ack1) then None else
  let ack2 := read_upper ops2 s2 in
  if negb (ac_le (snd h2) ack2) then None else
  todo1 <- prep_all s1 ack1 cap (map_batches s2);
  Some {| j_side1 := {| js_ack := ack1; js_preload := ack1; js_trace := Some h1 |};
          j_side2 := {| js_ack := ack2; js_preload := ack2; js_trace := Some h2 |};
          j_todo0 := []; j_todo1 := todo1 |}.

(** join.rs:205-237 and 251-287: the body of the loop over the batches of a message, once for both inputs.
    [B] is the batch type of the input, [B'] of the other one; [prep] is [tactic.prep] with its arguments in
    the right order. *)
Section Accept.
Context {B M B' M' : Type}.
Variable ops : BatchOps B M T.
Variable ops' : BatchOps B' M' T.
Variable prep : B -> list B' -> T -> option W.

Definition accept (s' : Spine B' M' T) (ack' : list T) (cap : T) (own : jside) (b : B) : option (jside * list (T * W)) :=
  let lower := d_lower (b_desc ops b) in
  let upper := d_upper (b_desc ops b) in
  (* "batch spans the preload boundary" *)
  if negb (ac_le upper (js_preload own) || ac_le (js_preload own) lower) then None
  (* "batch spans the acknowledged frontier" *)
  else if negb (ac_le (js_ack own) lower || ac_le upper (js_ack own)) then None
  else if negb (ac_le upper (js_preload own)) then
    work <- (if nonempty ops b then
               st <- batches_through ops' s' ack'; w <- prep b st cap; Some [(cap, w)]
             else Some []);
    ack <- (if ac_le (js_ack own) lower then if ac_le (js_ack own) upper then Some upper else None else Some (js_ack own));
    Some ({| js_ack := ack; js_preload := js_preload own; js_trace := js_trace own |}, work)
  else Some (own, []).

Fixpoint accept_all (s' : Spine B' M' T) (ack' : list T) (cap : T) (own : jside) (bs : list B) : option (jside * list (T * W)) :=
  match bs with
  | [] => Some (own, [])
  | b :: bs => ' (own, w1) <- accept s' ack' cap own b; ' (own, w2) <- accept_all s' ack' cap own bs; Some (own, w1 ++ w2)
  end.

(* join.rs:200-242 and 245-293: the messages of an input; a message while the other trace is dropped panics *)
Fixpoint accept_msgs (s' : Spine B' M' T) (ack' : list T) (other_trace : option (list T * list T)) (own : jside) (msgs : list (T * list B))
  : option (jside * list (T * W)) :=
  match msgs with
  | [] => Some (own, [])
  | (cap, bs) :: msgs =>
      match other_trace with
      | None => None
      | Some _ =>
          ' (own, w1) <- accept_all s' ack' cap own bs;
          ' (own, w2) <- accept_msgs s' ack' other_trace own msgs;
          Some (own, w1 ++ w2)
      end
  end.

(* join.rs:296-301: advance_upper, unless the trace is dropped *)
Definition pass_empty (s : Spine B M T) (own : jside) : jside :=
  match js_trace own with
  | Some _ => {| js_ack := advance_upper ops s (js_ack own); js_preload := js_preload own; js_trace := js_trace own |}
  | None => own
  end.
End Accept.

(* join.rs:329-341 drain.  Each round ships a container or retires an iterator; [rounds] bounds them.
   The containers shipped, with the time of the capability they are shipped at. *)
Fixpoint drain (rounds : nat) (queue : list (T * W)) (fuel : Z) : option (list (T * W) * list (T * list X)) :=
  if (fuel <? 0)%Z then Some (queue, []) else
  match queue with
  | [] => Some ([], [])
  | (cap, w) :: queue' =>
      match rounds with
      | 0 => None
      | S rounds =>
          ' (w, o) <- jt_next tactic w;
          match o with
          | Some c => ' (queue, outs) <- drain rounds ((cap, w) :: queue') (fuel - Z.of_nat (length c))%Z; Some (queue, (cap, c) :: outs)
          | None => drain rounds queue' fuel
          end
      end
  end.
Definition drain_rounds (queue : list (T * W)) (fuel : Z) : nat := S (Z.to_nat fuel) + length queue.

(* join.rs:361-380 trace maintenance, for one trace, with the frontier of the other input: the handle is
   dropped, or its frontiers advanced (agent.rs:43-66) *)
Definition maintain (frontier' : list T) (own : jside) : jside :=
  match js_trace own with
  | None => own
  | Some (L, P) =>
      {| js_ack := js_ack own; js_preload := js_preload own;
         js_trace := match frontier' with
                     | [] => None
                     | _ => Some (antichain_join L frontier', antichain_join P (js_ack own))
                     end |}
  end.

(* join.rs:181-380: one activation.  [budget] is [fuel / 2], 1_000_000; the messages delivered on the two
   inputs and their frontiers are arguments, and so are the shared traces. *)
Definition j_activate (budget : Z) (s1 : Spine B1 M1 T) (s2 : Spine B2 M2 T) (msgs1 : list (T * list B1)) (msgs2 : list (T * list B2))
    (frontier1 frontier2 : list T) (j : jstate) : option (jstate * list (T * list X)) :=
  ' (side1, new0) <- accept_msgs ops1 ops2 (fun b st cap => jt_prep tactic [b] st true cap) s2 (js_ack (j_side2 j)) (js_trace (j_side2 j)) (j_side1 j) msgs1;
  ' (side2, new1) <- accept_msgs ops2 ops1 (fun b st cap => jt_prep tactic st [b] false cap) s1 (js_ack side1) (js_trace side1) (j_side2 j) msgs2;
  let side1 := pass_empty ops1 s1 side1 in
  let side2 := pass_empty ops2 s2 side2 in
  let todo0 := j_todo0 j ++ new0 in
  let todo1 := j_todo1 j ++ new1 in
  ' (todo0, outs0) <- drain (drain_rounds todo0 budget) todo0 budget;
  ' (todo1, outs1) <- drain (drain_rounds todo1 budget) todo1 budget;
  Some ({| j_side1 := maintain frontier2 side1; j_side2 := maintain frontier1 side2; j_todo0 := todo0; j_todo1 := todo1 |}, outs0 ++ outs1).
End Driver.
