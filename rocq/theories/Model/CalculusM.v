(** Model of dogsdogsdogs/src/calculus.rs, and of entering a scope whose times are AltNeu (altneu.rs:23-26): the effect on
    updates.  Streams are lists of updates. *)
From Verif Require Export Model.AltNeuM Base.Difference.

Section Calculus.
Context {D T R : Type} {DR : Diff R} {AR : Abelian R}.
(* calculus.rs:40-52: each change at the moment it happens, then retracted; [enter] makes the time [alt] *)
Definition differentiate (c : list (D * T * R)) : list (D * (T * bool) * R) :=
  flat_map (fun u => let '(d, t, r) := u in [(d, alt t, r); (d, neu t, dneg r)]) c.
(* calculus.rs:62-67 *)
Definition integrate (c : list (D * (T * bool) * R)) : list (D * T * R) :=
  map (fun u => (fst (fst u), fst (snd (fst u)), snd u)) (filter (fun u => negb (snd (snd (fst u)))) c).
(* arrangement.enter_at(inner, |_,_,t| AltNeu::alt(t.clone()), ..) and AltNeu::neu, as in examples/delta_query.rs:49-57 *)
Definition enter_alt (c : list (D * T * R)) : list (D * (T * bool) * R) := map (fun u => (fst (fst u), alt (snd (fst u)), snd u)) c.
Definition enter_neu (c : list (D * T * R)) : list (D * (T * bool) * R) := map (fun u => (fst (fst u), neu (snd (fst u)), snd u)) c.
End Calculus.
