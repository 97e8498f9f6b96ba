(** Model of differential-dataflow/src/difference.rs *)
From Coq Require Import List ZArith Bool.
Import ListNotations.

(** ** Built-in integers -- difference.rs:74-120, [builtin_implementation!], [builtin_abelian_implementation!]
    Simplification: unbounded integers, that is, runs in which no [+=], [*] or [-] overflows
    (overflow panics in debug builds and wraps, like [Wrapping] below, in release builds). *)
Definition int_plus (a b : Z) : Z := (a + b)%Z.          (* 80 *)
Definition int_is_zero (a : Z) : bool := (a =? 0)%Z.     (* 77 *)
Definition int_zero : Z := 0%Z.                          (* 84 *)
Definition int_neg (a : Z) : Z := (- a)%Z.               (* 97 *)
Definition int_mul (a b : Z) : Z := (a * b)%Z.           (* 89 *)

(** ** [std::num::Wrapping<iN>] -- difference.rs:123-152
    Values are the signed residues in [-2^(n-1), 2^(n-1)). *)
Section Wrapping.
Variable n : Z.                                           (* bit width, at least one *)
Definition wrap (z : Z) : Z := ((z + 2 ^ (n - 1)) mod (2 ^ n) - 2 ^ (n - 1))%Z.
Definition in_range (z : Z) : Prop := (- 2 ^ (n - 1) <= z < 2 ^ (n - 1))%Z.
Definition wrapping_plus (a b : Z) : Z := wrap (a + b).  (* 129 *)
Definition wrapping_neg (a : Z) : Z := wrap (- a).       (* 137 *)
Definition wrapping_mul (a b : Z) : Z := wrap (a * b).   (* 142 *)
End Wrapping.

(** ** [Present] -- difference.rs:156-188 *)
Inductive present := Present.
Definition present_plus (a b : present) : present := a.               (* 182 *)
Definition present_is_zero (a : present) : bool := false.             (* 178 *)
Definition present_mul {T} (a : present) (t : T) : T := t.            (* 172 *)

(** ** Tuples -- difference.rs:191-251, [tuple_implementation!]
    The macro is given for arities 0 to 4; modelled by [unit] and by pairs, which nest. *)
Definition unit_plus (a b : unit) : unit := a.
Definition unit_is_zero (a : unit) : bool := true.                    (* 202-207: [zero] starts true, no fields *)
Definition unit_neg (a : unit) : unit := a.
Section Tuple.
Context {A B : Type}.
Variables (pa : A -> A -> A) (pb : B -> B -> B) (za : A -> bool) (zb : B -> bool) (na : A -> A) (nb : B -> B).
Definition pair_plus (x y : A * B) : A * B := (pa (fst x) (fst y), pb (snd x) (snd y)).   (* 212-216 *)
Definition pair_is_zero (x : A * B) : bool := za (fst x) && zb (snd x).                   (* 202-207 *)
Definition pair_neg (x : A * B) : A * B := (na (fst x), nb (snd x)).                      (* 228-231 *)
Definition pair_mul {T C E} (ma : A -> T -> C) (mb : B -> T -> E) (x : A * B) (t : T) : C * E :=
  (ma (fst x) t, mb (snd x) t).                                                           (* 238-241 *)
End Tuple.

(** ** Vectors -- difference.rs:254-319 *)
Section Vector.
Context {R : Type}.
Variables (plus : R -> R -> R) (zerob : R -> bool) (neg : R -> R).
(* 271-281: add over the common prefix, then push the rest of the right-hand side *)
Fixpoint vec_plus (a b : list R) : list R :=
  match a, b with
  | [], _ => b
  | _, [] => a
  | x :: a', y :: b' => plus x y :: vec_plus a' b'
  end.
Definition vec_is_zero (a : list R) : bool := forallb zerob a.        (* 259 *)
Definition vec_zero : list R := [].                                   (* 298 *)
Definition vec_neg (a : list R) : list R := map neg a.                (* 304-308 *)
Definition vec_mul {T S} (mul : R -> T -> S) (a : list R) (t : T) : list S := map (fun x => mul x t) a.  (* 313 *)
End Vector.
