(** What it means to give identifiers to the records of a collection. *)
From Verif Require Export Base.Collections Spec.Collection.

Section Identify.
Context {D H : Type} {OD : Ord D} {OH : Ord H}.
(* each record appears with one identifier, as often as in the collection *)
Definition one_identifier_each (c : list (D * Z)) (ids : list (D * H * Z)) : Prop :=
  exists id : D -> H, forall d i, weight ids (d, i) = if eqb (id d) i then weight c d else 0%Z.
(* no two records have the same *)
Definition identifiers_differ (ids : list (D * H * Z)) : Prop := forall d d' i, weight ids (d, i) <> 0%Z -> weight ids (d', i) <> 0%Z -> d = d'.
End Identify.
