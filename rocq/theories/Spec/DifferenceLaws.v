(** The algebraic laws operators rely on, stated for an equivalence [eqv] on difference values
    (equality for all types but vectors, where trailing zeros are not significant). *)
From Coq Require Import Bool.

Section Laws.
Context {R : Type}.
Variable eqv : R -> R -> Prop.
Variable plus : R -> R -> R.
Variable zerob : R -> bool.

(** [Semigroup]: addition is associative and commutative; anything reporting zero is an identity. *)
Record semigroup_laws : Prop := {
  sg_assoc : forall a b c, eqv (plus (plus a b) c) (plus a (plus b c));
  sg_comm : forall a b, eqv (plus a b) (plus b a);
  sg_zero_id : forall z a, zerob z = true -> eqv (plus z a) a /\ eqv (plus a z) a
}.

(** [Monoid]: there is a zero, it reports zero, and only values equivalent to it do. *)
Record monoid_laws (zero : R) : Prop := {
  mn_semigroup : semigroup_laws;
  mn_zero : zerob zero = true;
  mn_zero_only : forall a, zerob a = true <-> eqv a zero
}.

(** [Abelian]: negation gives inverses. *)
Record abelian_laws (zero : R) (neg : R -> R) : Prop := {
  ab_monoid : monoid_laws zero;
  ab_neg : forall a, zerob (plus a (neg a)) = true
}.
End Laws.

(** [Multiply]: distributes over addition on both sides. *)
Record multiply_laws {R1 R2 R3 : Type} (eqv : R3 -> R3 -> Prop)
  (plus1 : R1 -> R1 -> R1) (plus2 : R2 -> R2 -> R2) (plus3 : R3 -> R3 -> R3) (mul : R1 -> R2 -> R3) : Prop := {
  mu_left : forall a b c, eqv (mul (plus1 a b) c) (plus3 (mul a c) (mul b c));
  mu_right : forall a b c, eqv (mul a (plus2 b c)) (plus3 (mul a b) (mul a c))
}.
