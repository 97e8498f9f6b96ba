(** What users of a server see: the state it is in after some commands, what is running, what is published,
    and what a trace says. *)
From Coq Require Import String.
From Verif Require Export Model.ServerM Spec.Collection.

(** The server on worker [index] of [peers], after it has executed the commands [cs] from its start.  When it
    starts, the worker may have made other dataflows. *)
Definition after (index peers : nat) (cs : list Command) (sv : Server) (wk : Worker) : Prop :=
  exists next, serve cs server_new {| wk_index := index; wk_peers := peers; wk_next := next; wk_running := [] |} = Some (sv, wk).

(** The program [n] is installed as [p]; the trace [t] is published as [tr]; the dataflow [id] is running, and
    reads the traces and dataflows [reads]. *)
Definition installed (sv : Server) (n : string) (p : Installed) : Prop := sget (sv_programs sv) n = Some p.
Definition published (sv : Server) (t : string) (tr : Trace) : Prop := sget (sv_traces sv) t = Some tr.
Definition running (wk : Worker) (id : nat) (reads : list (string * nat)) : Prop := nget (wk_running wk) id = Some reads.
(** Some running dataflow has imported the trace [t]. *)
Definition in_use (wk : Worker) (t : string) : Prop := exists id reads producer, running wk id reads /\ In (t, producer) reads.

(** The names the server gives to sources of its own. *)
Definition own_name (n : string) : Prop := n = "clock"%string \/ exists r, recipe_parse n = Some r.
(** No program is installed under such a name. *)
Definition named_apart (cs : list Command) : Prop := forall n root, In (Install n root) cs -> ~ own_name n.

(** Rows can be generated: fields are drawn from a range that is not empty, or there are none to draw. *)
Definition drawable (r : Recipe) : Prop :=
  match r with Random nodes edges arity _ => nodes <> 0%N \/ edges = 0%N \/ arity = 0%N | Iota _ => True end.
(** Programs that the front end makes: the root scope has no parent; and their generated sources make sense. *)
Definition sensible (c : Command) : Prop :=
  match c with
  | Install _ root => forall im, In im (sc_imports root) ->
      match im_from im with SParent _ => False | SInput _ => True | STrace t => forall r, recipe_parse t = Some r -> drawable r end
  | _ => True
  end.

(** The total of the updates of the row [r] at times before [e]. *)
Definition total_before (e : nat) (us : list (row * nat * Z)) (r : row) : Z :=
  fold_right Z.add 0%Z (map snd (filter (fun u => eqb (fst (fst u)) r && (snd (fst u) <? e)) us)).
Definition key_matches (key : option Value) (r : row) : Prop := match key with Some k => fst r = k | None => True end.
