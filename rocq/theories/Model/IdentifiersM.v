(** * Model of differential-dataflow/src/algorithms/identifiers.rs

    As in PrefixSumM, operators are functions on collections at one time.  [hashed] is any function to any ordered type; counts are
    integers. *)
From Verif Require Export Model.PrefixSumM.

Section Identifiers.
Context {D H : Type} {OD : Ord D} {OH : Ord H}.
Variable hashed : nat * D -> H.
(* identifiers.rs:65-81, the logic of the reduce: what changes for the winner, the first, and the losers.  [input[0]] panics when
   there is none, but the input of reduce is not empty *)
Definition id_logic (_ : H) (input : list (nat * D * Z)) : list (nat * D * Z) :=
  match input with
  | [] => []
  | ((round, record), count) :: losers =>
      (if 0 <? round then [((0, record), Z.opp count); ((round, record), count)] else []) ++
      flat_map (fun x => let '((round, record), count) := x in [((0, record), Z.opp count); ((round + 1, record), count)]) losers
  end.
(* identifiers.rs:61-82, the body of the loop *)
Definition id_body (init diff : coll (nat * D)) : coll (nat * D) :=
  k_map snd (k_reduce id_logic (k_map (fun pair => (hashed pair, pair)) (k_concat init diff))).
(* identifiers.rs:57-83 *)
Definition id_diff (rounds : nat) (c : coll D) : coll (nat * D) := let init := k_map (fun record => (0, record)) c in k_iterate rounds (id_body init) [].
(* identifiers.rs:84-85 *)
Definition identifiers (rounds : nat) (c : coll D) : coll (D * H) :=
  k_map (fun pair => (snd pair, hashed pair)) (k_concat (id_diff rounds c) (k_map (fun record => (0, record)) c)).
End Identifiers.
