(** * Model of dogsdogsdogs/src/lib.rs: extending prefixes with the values several indexed relations agree on
    The operators over [lookup_map] are what they are shown to produce, [lookups] of LookupSpec, with the updates of a stream in one list. *)
From Verif Require Export Spec.LookupSpec.

Section Extend.
Context {P V T R : Type} {OV : Ord V} {TT : Time T} {DR : Diff R} {MU : Multiply R R R}.
(** lib.rs:97-110, 167-178: a relation with its key selector.  [x_counts] are the updates of its count index, of which the users say what they add up to (lib.rs:139-145 makes
    it of the distinct records of the relation). *)
Record extender := { x_key : Type; x_ord : Ord x_key; x_rel : list (x_key * V * T * R); x_counts : list (x_key * unit * T * Z); x_selector : P -> x_key }.
#[local] Existing Instance x_ord.
(* lib.rs:136, 147: the relation arranged by itself *)
Definition x_validate (x : extender) : list (x_key x * V * unit * T * R) := map (fun u => (fst (fst u), tt, snd (fst u), snd u)) (x_rel x).
(* lib.rs:192-195; count.rs:28-40 *)
Definition ext_count (x : extender) (index : nat) (ps : list (P * N * nat * T * R)) : list (P * N * nat * T * R) :=
  lookups (fun p => x_selector x (fst (fst p))) (count_output index) (x_counts x) ps.
(* lib.rs:197-200; propose.rs:32-42 *)
Definition ext_propose (x : extender) (ps : list (P * T * R)) : list (P * V * T * R) := lookups (x_selector x) propose_output (x_rel x) ps.
(* lib.rs:202-205; validate.rs:30-38 *)
Definition ext_validate (x : extender) (es : list (P * V * T * R)) : list (P * V * T * R) :=
  lookups (fun pv => (x_selector x (fst pv), snd pv)) validate_output (x_validate x) es.
(* lib.rs:61-63: the loop over the extenders, from [index] on *)
Fixpoint ext_counts (index : nat) (xs : list extender) (counts : list (P * N * nat * T * R)) : list (P * N * nat * T * R) :=
  match xs with [] => counts | x :: xs => ext_counts (S index) xs (ext_count x index counts) end.
(* lib.rs:65: the part at [index] *)
Definition ext_part (index : nat) (counts : list (P * N * nat * T * R)) : list (P * T * R) :=
  map (fun u => (fst (fst (fst (fst u))), snd (fst u), snd u)) (filter (fun u => snd (fst (fst u)) =? index) counts).
Definition enumerate (xs : list extender) : list (nat * extender) := List.combine (seq 0 (length xs)) xs.
(* lib.rs:49-78; with no extenders the partition panics at the first prefix, not modelled *)
Definition extend (xs : list extender) (ps : list (P * T * R)) : list (P * V * T * R) :=
  match xs with
  | [x] => ext_propose x ps
  | _ => let counts := ext_counts 0 xs (map (fun p => (fst (fst p), (2 ^ 31)%N, 0, snd (fst p), snd p)) ps) in
         flat_map (fun ix => fold_left (fun es other => ext_validate (snd other) es) (filter (fun o => negb (fst o =? fst ix)) (enumerate xs))
                               (ext_propose (snd ix) (ext_part (fst ix) counts))) (enumerate xs)
  end.
End Extend.
Arguments extender : clear implicits.
