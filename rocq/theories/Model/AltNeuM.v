(** Model of dogsdogsdogs/src/altneu.rs: a time and whether it is new. *)
From Verif Require Export Base.Lattice.

Section AltNeu.
Context {T : Type}.
Variable eq : T -> T -> bool.
Variable le : T -> T -> bool.
Variables jn mt : T -> T -> T.

(* altneu.rs:23-26 *)
Definition alt (t : T) : T * bool := (t, false).
Definition neu (t : T) : T * bool := (t, true).

(* altneu.rs:30-39 less_equal; [self.neu <= other.neu] on booleans is implication *)
Definition an_le (a b : T * bool) : bool :=
  if eq (fst a) (fst b) then implb (snd a) (snd b) else le (fst a) (fst b).

(* altneu.rs:76-87 *)
Definition an_join (a b : T * bool) : T * bool :=
  let time := jn (fst a) (fst b) in
  let n := false in
  let n := if eq time (fst a) then n || snd a else n in
  let n := if eq time (fst b) then n || snd b else n in
  (time, n).
(* altneu.rs:88-98 *)
Definition an_meet (a b : T * bool) : T * bool :=
  let time := mt (fst a) (fst b) in
  let n := true in
  let n := if eq time (fst a) then n && snd a else n in
  let n := if eq time (fst b) then n && snd b else n in
  (time, n).
End AltNeu.
