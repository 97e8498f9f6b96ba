(** What extending a prefix should give. *)
From Verif Require Export Model.ExtendM.

Section Extensions.
Context {P V T R : Type} {OV : Ord V} {TT : Time T} {DR : Diff R} {MU : Multiply R R R}.
#[local] Existing Instance x_ord.
(** The multiplicity of a value as an extension of a prefix, at a time, in one relation; and the values it has. *)
Definition multiplicity (x : extender P V T R) (p : P) (v : V) (t : T) : R := acc (D:=x_key x*V) (x_rel x) (x_selector x p, v) t.
Definition candidates (x : extender P V T R) (p : P) (t : T) : list V := values_at (x_rel x) (x_selector x p) t.
(** The count index counts the values. *)
Definition counts_ok (x : extender P V T R) : Prop := forall k t, acc (D:=x_key x*unit) (x_counts x) (k, tt) t = Z.of_nat (length (values_at (x_rel x) k t)).
(** The values in all relations. *)
Definition agreed (xs : list (extender P V T R)) (p : P) (t : T) : list V :=
  match xs with
  | [] => []
  | x :: _ => filter (fun v => forallb (fun y => negb (is_zero (multiplicity y p v t))) xs) (candidates x p t)
  end.
(** Each prefix with each value, and the multiplicity of the prefix times that of the value. *)
Definition extensions (xs : list (extender P V T R)) (mult : P -> V -> T -> R) (p : P * T * R) : list (P * V * T * R) :=
  let '(pre, t, r) := p in
  flat_map (fun v => let r' := dmul r (mult pre v t) in if is_zero r' then [] else [(pre, v, t, r')]) (agreed xs pre t).
End Extensions.
