(** Model of differential-dataflow/src/lattice.rs, and of timely's [Antichain] and [Product]. *)
From Verif Require Export Base.Lattice.

(** ** Integers, [Duration] and [()]  -- lattice.rs:231-255, macro [implement_lattice!]

    [join] is [max], [meet] is [min]; timely's [PartialOrder] for these types is the derived [<=].
    Simplification: any totally ordered type; the integer types are instances. *)
Definition int_le {T} {O : Ord T} (a b : T) : bool := leb a b.
Definition int_join {T} {O : Ord T} (a b : T) : T := if leb a b then b else a.  (* std::cmp::max *)
Definition int_meet {T} {O : Ord T} (a b : T) : T := if leb a b then a else b.  (* std::cmp::min *)

(** ** [Product<T1,T2>] -- lattice.rs:153-178; order from timely's order.rs: both coordinates *)
Section Product.
Context {T1 T2 : Type}.
Variable le1 : T1 -> T1 -> bool.
Variable le2 : T2 -> T2 -> bool.
Variable f1 : T1 -> T1 -> T1.
Variable f2 : T2 -> T2 -> T2.
(* timely order.rs, PartialOrder for Product *)
Definition product_le (a b : T1 * T2) : bool := le1 (fst a) (fst b) && le2 (snd a) (snd b).
(* lattice.rs:155-160 (join) and 167-172 (meet): coordinate-wise *)
Definition product_op (a b : T1 * T2) : T1 * T2 := (f1 (fst a) (fst b), f2 (snd a) (snd b)).
End Product.

(** ** Lexicographic pairs [(T1,T2)] -- lattice.rs:204-229 *)
Section Lexicographic.
Context {T1 T2 : Type}.
Variable eq1 : T1 -> T1 -> bool.
Variable le1 : T1 -> T1 -> bool.
Variable jn1 mt1 : T1 -> T1 -> T1.
Variable le2 : T2 -> T2 -> bool.
Variable jn2 mt2 : T2 -> T2 -> T2.
Variable min2 max2 : T2.

(* timely: less_than is less_equal and not equal *)
Definition lt1 (a b : T1) : bool := le1 a b && negb (eq1 a b).

(* timely order.rs, PartialOrder for (T1,T2): self.0 < other.0, or equal firsts and ordered seconds *)
Definition lex_le (a b : T1 * T2) : bool :=
  lt1 (fst a) (fst b) || (eq1 (fst a) (fst b) && le2 (snd a) (snd b)).

(* lattice.rs:206-216 *)
Definition lex_join (a b : T1 * T2) : T1 * T2 :=
  if eq1 (fst a) (fst b) then (fst a, jn2 (snd a) (snd b))
  else if lt1 (fst a) (fst b) then b
  else if lt1 (fst b) (fst a) then a
  else (jn1 (fst a) (fst b), min2).

(* lattice.rs:218-228 *)
Definition lex_meet (a b : T1 * T2) : T1 * T2 :=
  if eq1 (fst a) (fst b) then (fst a, mt2 (snd a) (snd b))
  else if lt1 (fst a) (fst b) then a
  else if lt1 (fst b) (fst a) then b
  else (mt1 (fst a) (fst b), max2).
End Lexicographic.

(** ** Antichains: timely's progress/frontier.rs, and lattice.rs:278-371 *)
Section Antichain.
Context {T : Type} {LT : Lattice T}.

(* timely Antichain::less_equal(&self, time): any element <= time *)
Definition ac_less_equal (F : list T) (t : T) : bool := existsb (fun f => tle f t) F.

(* timely Antichain::less_than(&self, time): any element strictly less *)
Definition ac_less_than (F : list T) (t : T) : bool := existsb (fun f => tlt f t) F.

(* timely Antichain::insert: unless dominated, drop dominated elements and push at the end *)
Definition ac_insert (F : list T) (t : T) : list T :=
  if ac_less_equal F t then F
  else filter (fun f => negb (tle t f)) F ++ [t].

(* timely Antichain::extend / from_iter: insert one after the other *)
Definition ac_extend (F : list T) (ts : list T) : list T := fold_left ac_insert ts F.
Definition ac_from (ts : list T) : list T := ac_extend [] ts.

(* timely PartialOrder for Antichain: every element of [G] is beyond some element of [F] *)
Definition ac_le (F G : list T) : bool := forallb (fun g => ac_less_equal F g) G.

(* lattice.rs:309-317 antichain_join_into: the destination [upper] is cleared first *)
Definition antichain_join_into (one other : list T) (upper : list T) : list T :=
  let upper := firstn 0 upper in   (* upper.clear() *)
  fold_left (fun up t1 => fold_left (fun up' t2 => ac_insert up' (join t1 t2)) other up) one upper.

(* lattice.rs:278-283 antichain_join *)
Definition antichain_join (one other : list T) : list T := antichain_join_into one other [].

(* lattice.rs:340-349 antichain_meet *)
Definition antichain_meet (one other : list T) : list T :=
  fold_left ac_insert other (fold_left ac_insert one []).

(* lattice.rs:351-371 Lattice for Antichain: same loops *)
Definition antichain_lattice_join (one other : list T) : list T :=
  fold_left (fun up t1 => fold_left (fun up' t2 => ac_insert up' (join t1 t2)) other up) one [].
Definition antichain_lattice_meet (one other : list T) : list T :=
  fold_left ac_insert other (fold_left ac_insert one []).

(** ** [Lattice::advance_by] -- lattice.rs:137-148 *)
Definition advance_by (t : T) (frontier : list T) : T :=
  match frontier with
  | [] => t
  | [first] => join t first
  | first :: rest => fold_left (fun result f => meet result (join t f)) rest (join t first)
  end.
End Antichain.
