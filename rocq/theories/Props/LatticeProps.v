(** C01-C04: timestamps, advancing by frontiers, frontier arithmetic. *)
From Verif Require Import Proofs.LatticeP.

(** ** C01 *)
(** Integers (and any totally ordered timestamp implemented with max/min). *)
Theorem c01_integer_lattice : forall (T : Type) (O : Ord T), is_lattice (T:=T) int_le int_join int_meet.
Proof. intros T O. exact int_is_lattice. Qed.
Print Assumptions c01_integer_lattice.

(** [Product<T1,T2>]. *)
Theorem c01_product_lattice : forall (T1 T2 : Type) le1 j1 m1 le2 j2 m2,
  is_lattice (T:=T1) le1 j1 m1 -> is_lattice (T:=T2) le2 j2 m2 ->
  is_lattice (product_le le1 le2) (product_op j1 j2) (product_op m1 m2).
Proof. intros T1 T2. exact product_is_lattice. Qed.
Print Assumptions c01_product_lattice.

(** Lexicographic pairs [(T1,T2)], for a second coordinate with a least and a greatest element. *)
Theorem c01_lexicographic_lattice : forall (T1 T2 : Type) eq1 le1 j1 m1 le2 j2 m2 min2 max2,
  (forall a b : T1, eq1 a b = true <-> a = b) ->
  is_lattice (T:=T1) le1 j1 m1 -> is_lattice (T:=T2) le2 j2 m2 ->
  (forall b, le2 min2 b = true) -> (forall b, le2 b max2 = true) ->
  is_lattice (lex_le eq1 le1 le2) (lex_join eq1 le1 j1 j2 min2) (lex_meet eq1 le1 m1 m2 max2).
Proof. intros T1 T2. exact lex_is_lattice. Qed.
Print Assumptions c01_lexicographic_lattice.

Example c01_product_ex :
  is_lattice (T:=nat * nat) (product_le int_le int_le) (product_op int_join int_join) (product_op int_meet int_meet).
Proof. apply c01_product_lattice; apply c01_integer_lattice. Qed.
Example c01_product_values :
  product_op int_join int_join (3, 5) (4, 2) = (4, 5) /\ product_op int_meet int_meet (3, 5) (4, 2) = (3, 2).
Proof. vm_compute; auto. Qed.
(** Incomparable first coordinates exist, so the third and fourth cases of lexicographic join are met. *)
Example c01_lex_ex :
  is_lattice (T:=(nat * nat) * bool)
    (lex_le eqb (product_le int_le int_le) int_le)
    (lex_join eqb (product_le int_le int_le) (product_op int_join int_join) int_join false)
    (lex_meet eqb (product_le int_le int_le) (product_op int_meet int_meet) int_meet true).
Proof.
  apply c01_lexicographic_lattice.
  - intros a b; apply eqb_eq.
  - apply c01_product_ex.
  - apply c01_integer_lattice.
  - intros []; reflexivity.
  - intros []; reflexivity.
Qed.
Example c01_lex_value :
  lex_join eqb (product_le int_le int_le) (product_op int_join int_join) int_join false ((1, 2), true) ((2, 1), true)
  = ((2, 2), false).
Proof. reflexivity. Qed.

(** ** C02 *)
Theorem c02_advance_by_invisible : forall (T : Type) (L : Lattice T) (F : list T) (t u : T),
  beyond F u -> tle (advance_by t F) u = tle t u.
Proof. intros T L F t u. exact (advance_by_sound t F u). Qed.
Print Assumptions c02_advance_by_invisible.

Theorem c02_advance_by_empty : forall (T : Type) (L : Lattice T) (t : T), advance_by t [] = t.
Proof. intros T L. exact advance_by_nil. Qed.
Print Assumptions c02_advance_by_empty.

Theorem c02_advance_by_extensive : forall (T : Type) (L : Lattice T) (F : list T) (t : T),
  tle t (advance_by t F) = true.
Proof. intros T L F t. exact (advance_by_ge t F). Qed.
Print Assumptions c02_advance_by_extensive.

Example c02_ex : beyond [(3, 1); (1, 4)] (3, 5) /\
  advance_by (1, 1) [(3, 1); (1, 4)] = (1, 1) /\ advance_by (0, 0) [(3, 1); (1, 4)] = (1, 1) /\
  advance_by (2, 0) [(3, 1); (1, 4)] = (2, 1).
Proof. split; [exists (3, 1); simpl; auto | vm_compute; auto]. Qed.

(** ** C03 *)
Theorem c03_advance_by_canonical : forall (T : Type) (L : Lattice T) (F : list T) (t1 t2 : T),
  F <> [] ->
  ((forall u, beyond F u -> tle t1 u = tle t2 u) <-> advance_by t1 F = advance_by t2 F).
Proof. intros T L F t1 t2. exact (advance_by_canonical t1 t2 F). Qed.
Print Assumptions c03_advance_by_canonical.

Theorem c03_advance_by_idempotent : forall (T : Type) (L : Lattice T) (F : list T) (t : T),
  advance_by (advance_by t F) F = advance_by t F.
Proof. intros T L F t. exact (advance_by_idem t F). Qed.
Print Assumptions c03_advance_by_idempotent.

Theorem c03_advance_by_monotone : forall (T : Type) (L : Lattice T) (F : list T) (t1 t2 : T),
  tle t1 t2 = true -> tle (advance_by t1 F) (advance_by t2 F) = true.
Proof. intros T L F t1 t2. exact (advance_by_mono t1 t2 F). Qed.
Print Assumptions c03_advance_by_monotone.

Example c03_ex : [(3, 1); (1, 4)] <> [] /\
  advance_by (0, 1) [(3, 1); (1, 4)] = advance_by (1, 0) [(3, 1); (1, 4)] /\
  advance_by (2, 1) [(3, 1); (1, 4)] <> advance_by (1, 0) [(3, 1); (1, 4)].
Proof. split; [discriminate | split; [reflexivity | discriminate]]. Qed.

(** ** C04 *)
Theorem c04_antichain_join : forall (T : Type) (L : Lattice T) (F G : list T),
  antichain (antichain_join F G) /\ (forall t, beyond (antichain_join F G) t <-> beyond F t /\ beyond G t).
Proof. intros T L F G; split; [exact (antichain_join_antichain F G) | exact (antichain_join_beyond F G)]. Qed.
Print Assumptions c04_antichain_join.

Theorem c04_antichain_join_into : forall (T : Type) (L : Lattice T) (F G previous : list T),
  antichain_join_into F G previous = antichain_join F G.
Proof. intros T L F G p; exact eq_refl. Qed.
Print Assumptions c04_antichain_join_into.

Theorem c04_antichain_meet : forall (T : Type) (L : Lattice T) (F G : list T),
  antichain (antichain_meet F G) /\ (forall t, beyond (antichain_meet F G) t <-> beyond F t \/ beyond G t).
Proof. intros T L F G; split; [exact (antichain_meet_antichain F G) | exact (antichain_meet_beyond F G)]. Qed.
Print Assumptions c04_antichain_meet.

(** The antichain of a future is unique up to order, so the two theorems above determine the results. *)
Theorem c04_antichain_unique : forall (T : Type) (L : Lattice T) (F G : list T),
  antichain F -> antichain G -> same_future F G -> Permutation F G.
Proof. intros T L. exact same_future_perm. Qed.
Print Assumptions c04_antichain_unique.

(** [Antichain]'s own order and lattice operations. *)
Theorem c04_antichain_order : forall (T : Type) (L : Lattice T) (F G : list T),
  ac_le F G = true <-> (forall t, beyond G t -> beyond F t).
Proof. intros T L. exact ac_le_spec. Qed.
Print Assumptions c04_antichain_order.

Theorem c04_antichain_is_lattice : forall (T : Type) (L : Lattice T) (F G : list T),
  (ac_le F (antichain_lattice_join F G) = true /\ ac_le G (antichain_lattice_join F G) = true) /\
  (forall H, ac_le F H = true -> ac_le G H = true -> ac_le (antichain_lattice_join F G) H = true) /\
  (ac_le (antichain_lattice_meet F G) F = true /\ ac_le (antichain_lattice_meet F G) G = true) /\
  (forall H, ac_le H F = true -> ac_le H G = true -> ac_le H (antichain_lattice_meet F G) = true).
Proof.
  intros T L F G.
  exact (conj (ac_join_ub F G) (conj (fun H => ac_join_lub F G H) (conj (ac_meet_lb F G) (fun H => ac_meet_glb F G H)))).
Qed.
Print Assumptions c04_antichain_is_lattice.

Example c04_ex :
  antichain_join [(3, 1); (1, 4)] [(2, 2)] = [(3, 2); (2, 4)] /\
  antichain_meet [(3, 1); (1, 4)] [(1, 2)] = [(3, 1); (1, 2)] /\
  antichain_join_into [(3, 1)] [(2, 2)] [(0, 0)] = [(3, 2)].
Proof. vm_compute; auto. Qed.
