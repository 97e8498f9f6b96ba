(** * Model of differential-dataflow/src/operators/iterate.rs

    A loop's dataflow graph is: the source, if there is one, goes to the variable's collection and,
    negated, to the feedback; the body, whatever it is, reads the collection and sends its result to the
    feedback; the feedback sends to the collection.  Messages wait on the edges, and are taken from them in
    any order.  What the body sends, and when, is not determined here: it is any operator. *)
From Verif Require Export Model.CollectionM.

(** timely's summary of [Product<T, u64>] (timely 0.31, order/mod.rs and progress/timestamp.rs) that leaves the
    outer coordinate alone, and adds [step] to the inner one; there is no result when that overflows, the
    largest [u64] being [max].  iterate.rs:93, 116: [Product::new(Default::default(), 1)] *)
Definition next_round {T} (max step : nat) (t : T * nat) : option (T * nat) :=
  if snd t + step <=? max then Some (fst t, snd t + step) else None.

Section Loop.
Context {D T R : Type} {DR : Diff R} {AR : Abelian R}.
Local Notation message := (T * nat * list (D * (T * nat) * R))%type.
(* the largest [u64]; the step; and whether the variable was created by [new_from], with a source, or by [new] *)
Variable max step : nat.
Variable from : bool.

(** What has been sent so far, and what waits on the edges. *)
Record Loop := {
  lp_source : list message;                 (* sent by the source *)
  lp_collection : list message;             (* sent on the variable's collection *)
  lp_result : list message;                 (* sent by the body *)
  lp_to_collection : list message;          (* on the way from the source to the concatenation of iterate.rs:250 *)
  lp_to_feedback : list message             (* on the way to the feedback *)
}.
(* iterate.rs:221-225, 248-252 *)
Definition loop_new : Loop := {| lp_source := []; lp_collection := []; lp_result := []; lp_to_collection := []; lp_to_feedback := [] |}.

(* [n]th removed *)
Definition take_nth (n : nat) (l : list message) : option (message * list message) :=
  m <- get l n; Some (m, firstn n l ++ skipn (S n) l).

Inductive loop_event :=
| LSource (m : message)                     (* the source sends a message *)
| LBody (m : message)                       (* the body sends a message *)
| LDeliver (n : nat)                        (* a message of the source reaches the collection *)
| LFeedback (n : nat).                      (* the feedback passes a message on *)

Definition loop_step (s : Loop) (e : loop_event) : option Loop :=
  match e with
  | LSource m =>                            (* [new_from]: iterate.rs:250, 251; [set]: 260-262, 263-266 *)
      Some {| lp_source := lp_source s ++ [m]; lp_collection := lp_collection s; lp_result := lp_result s;
              lp_to_collection := if from then lp_to_collection s ++ [m] else lp_to_collection s;
              lp_to_feedback := if from then lp_to_feedback s ++ c_results_in (next_round max step) (c_negate [m]) else lp_to_feedback s |}
  | LBody m =>                              (* [set]: 263-266 *)
      Some {| lp_source := lp_source s; lp_collection := lp_collection s; lp_result := lp_result s ++ [m]; lp_to_collection := lp_to_collection s;
              lp_to_feedback := lp_to_feedback s ++ c_results_in (next_round max step) [m] |}
  | LDeliver n =>                           (* 250 *)
      ' (m, rest) <- take_nth n (lp_to_collection s);
      Some {| lp_source := lp_source s; lp_collection := lp_collection s ++ [m]; lp_result := lp_result s; lp_to_collection := rest; lp_to_feedback := lp_to_feedback s |}
  | LFeedback n =>                          (* timely's feedback: the message's time advances, and it is dropped if it cannot *)
      ' (m, rest) <- take_nth n (lp_to_feedback s);
      Some {| lp_source := lp_source s;
              lp_collection := lp_collection s ++ match next_round max step (fst m) with Some t => [(t, snd m)] | None => [] end;
              lp_result := lp_result s; lp_to_collection := lp_to_collection s; lp_to_feedback := rest |}
  end.
Fixpoint loop_run (s : Loop) (l : list loop_event) : option Loop :=
  match l with [] => Some s | e :: l => s <- loop_step s e; loop_run s l end.
End Loop.
Arguments Loop : clear implicits.
Arguments loop_event : clear implicits.
