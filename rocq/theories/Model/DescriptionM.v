(** Model of differential-dataflow/src/trace/description.rs:69-108, and of timely's antichain equality. *)
From Verif Require Export Model.LatticeM Base.Arrays.

Section Description.
Context {T : Type} {TT : Time T}.

(* timely progress/frontier.rs, PartialEq for Antichain: same length, and equal element by element or
   each element of one occurs in the other *)
Definition ac_eqb (F G : list T) : bool :=
  (length F =? length G) &&
  (forallb (fun x => eqb (fst x) (snd x)) (combine F G) || forallb (fun f => existsb (eqb f) G) F).

(* description.rs:69-76 *)
Record Description := { d_lower : list T; d_upper : list T; d_since : list T }.

(* description.rs:80-88: asserts that [lower] is not empty *)
Definition desc_new (lower upper since : list T) : option Description :=
  match lower with
  | [] => None
  | _ => Some {| d_lower := lower; d_upper := upper; d_since := since |}
  end.
End Description.
Arguments Description : clear implicits.
