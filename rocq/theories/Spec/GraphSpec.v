(** Graphs: edges, walks, distances, and what is connected. *)
From Verif Require Export Spec.Collection.

Section Graph.
Context {N : Type} {ON : Ord N}.
(** A graph is a collection of edges; no count is negative. *)
Definition is_multiset {D : Type} {OD : Ord D} (c : list (D * Z)) : Prop := forall d, (0 <= weight c d)%Z.
Definition member {D : Type} {OD : Ord D} (c : list (D * Z)) (d : D) : Prop := (0 < weight c d)%Z.
(** There is a walk of so many edges from one node to another. *)
Inductive walk (g : list (N * N * Z)) : nat -> N -> N -> Prop :=
| walk_here : forall x, walk g 0 x x
| walk_edge : forall k x y z, walk g k x y -> member g (y, z) -> walk g (S k) x z.
Definition reaches (g : list (N * N * Z)) (x y : N) : Prop := exists k, walk g k x y.
(** The least number, or label, that has a property. *)
Definition least {A : Type} {OA : Ord A} (P : A -> Prop) (a : A) : Prop := P a /\ forall b, P b -> le a b.
(** The least number of edges on a walk from any of the roots to the node. *)
Definition distance (g : list (N * N * Z)) (roots : list (N * Z)) (n : N) (d : nat) : Prop :=
  least (fun d => exists r, member roots r /\ walk g d r n) d.
(** The least of the labels of the nodes from which the node can be reached. *)
Definition least_label {L : Type} {OL : Ord L} (g : list (N * N * Z)) (nodes : list (N * L * Z)) (n : N) (l : L) : Prop :=
  least (fun l => exists m, member nodes (m, l) /\ reaches g m n) l.
(** Each can be reached from the other. *)
Definition same_component (g : list (N * N * Z)) (x y : N) : Prop := reaches g x y /\ reaches g y x.
(** The collection holds, once each, what has the property, and nothing else. *)
Definition holds_exactly {D : Type} {OD : Ord D} (c : list (D * Z)) (P : D -> Prop) : Prop :=
  forall d, (P d /\ weight c d = 1%Z) \/ (~ P d /\ weight c d = 0%Z).
End Graph.
