(** Two half joins instead of a join. *)
From Verif Require Export Spec.HalfJoinSpec.
Section Halves.
Context {K V D T R : Type}.
(** An update proposes itself, at its time (examples/delta_query2.rs:29-31). *)
Definition proposals_of (c : list (K * V * T * R)) : list (K * V * T * T * R) := map (fun u => (fst (fst u), snd (fst u), snd (fst u), snd u)) c.
(** The answers, at their times (examples/delta_query2.rs:60-62). *)
Definition at_their_times (us : list (D * T * T * R)) : list (D * T * R) := map (fun u => (fst (fst (fst u)), snd (fst (fst u)), snd u)) us.
End Halves.
(** [strictly a b] and [weakly b a] are the two halves of a total order. *)
Definition complementary {T : Type} (strictly weakly : T -> T -> bool) : Prop := forall a b, strictly a b = negb (weakly b a).
