(** What it means for [join] and [meet] to be least upper and greatest lower bounds of an order. *)
From Coq Require Import Bool.

Record is_lattice {T : Type} (le : T -> T -> bool) (jn mt : T -> T -> T) : Prop := {
  il_refl : forall x, le x x = true;
  il_trans : forall x y z, le x y = true -> le y z = true -> le x z = true;
  il_antisym : forall x y, le x y = true -> le y x = true -> x = y;
  il_join_ub : forall x y, le x (jn x y) = true /\ le y (jn x y) = true;
  il_join_least : forall x y z, le x z = true -> le y z = true -> le (jn x y) z = true;
  il_meet_lb : forall x y, le (mt x y) x = true /\ le (mt x y) y = true;
  il_meet_greatest : forall x y z, le z x = true -> le z y = true -> le z (mt x y) = true
}.
