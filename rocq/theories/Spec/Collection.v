(** * Specification vocabulary: collections, accumulation, frontiers

    This file is the small independent specification in whose terms the property theorems are stated.

    A collection is a finite list of updates [(data, time, diff)].  What a user of the library can
    observe of it is its accumulation at a time: the sum of the differences of the updates of that
    datum at times less or equal to it. *)
From Verif Require Export Base.Order Base.Lattice Base.Difference.

Section Weights.
Context {A R : Type} {OA : Ord A} {DR : Diff R}.

(** The total difference a list of weighted items gives to item [a]. *)
Definition weight (l : list (A * R)) (a : A) : R :=
  dsum (map snd (filter (fun x => eqb (fst x) a) l)).

(** Two weighted lists mean the same: every item has the same total. *)
Definition same_weights (l1 l2 : list (A * R)) : Prop := forall a, weight l1 a = weight l2 a.

(** Canonical form: strictly sorted by item, no zero differences. *)
Inductive strictly_sorted : list A -> Prop :=
| ss_nil : strictly_sorted []
| ss_one : forall a, strictly_sorted [a]
| ss_cons : forall a b l, lt a b -> strictly_sorted (b :: l) -> strictly_sorted (a :: b :: l).

Definition consolidated (l : list (A * R)) : Prop :=
  strictly_sorted (map fst l) /\ Forall (fun x => is_zero (snd x) = false) l.
End Weights.

Section Accumulation.
Context {D T R : Type} {OD : Ord D} {OT : Time T} {DR : Diff R}.

(** The accumulation of a collection: total difference of [d] at times less or equal to [t]. *)
Definition acc (c : list (D * T * R)) (d : D) (t : T) : R :=
  dsum (map snd (filter (fun u => eqb (fst (fst u)) d && tle (snd (fst u)) t) c)).
End Accumulation.

Section Frontiers.
Context {T : Type} {LT : Lattice T}.

(** [beyond F t]: the time [t] is at or beyond (greater or equal to some element of) the frontier [F]. *)
Definition beyond (F : list T) (t : T) : Prop := exists f, In f F /\ tle f t = true.

(** Mutually incomparable, hence also duplicate free. *)
Inductive antichain : list T -> Prop :=
| ac_nil : antichain []
| ac_cons : forall x l,
    (forall y, In y l -> tle x y = false /\ tle y x = false) -> antichain l -> antichain (x :: l).

(** Two frontiers describe the same future. *)
Definition same_future (F G : list T) : Prop := forall t, beyond F t <-> beyond G t.
End Frontiers.

Section Observation.
Context {D T R : Type} {OD : Ord D} {OT : Time T} {DR : Diff R}.

(** Two collections cannot be told apart at or beyond a frontier. *)
Definition same_beyond (F : list T) (c1 c2 : list (D * T * R)) : Prop :=
  forall d t, beyond F t -> acc c1 d t = acc c2 d t.

(** Two times that nothing at or beyond a frontier tells apart. *)
Definition indistinct (F : list T) (t t' : T) : Prop := forall u, beyond F u -> tle t u = tle t' u.
(** The updates of a record at the times that [p] picks, added up. *)
Definition total_at (p : T -> bool) (c : list (D * T * R)) (d : D) : R :=
  dsum (map snd (filter (fun u => eqb (fst (fst u)) d && p (snd (fst u))) c)).
(** Two collections with the same updates, except that each may be at another time, indistinct from its own:
    any choice of times that respects [indistinct] sees the same of both. *)
Definition alike (F : list T) (c1 c2 : list (D * T * R)) : Prop :=
  forall d (p : T -> bool), (forall t t', indistinct F t t' -> p t = p t') -> total_at p c1 d = total_at p c2 d.
End Observation.
