(** What a user of the interactive crate's programs relies on, in terms of scope trees. *)
From Verif Require Export Model.ScopeIrM.

(** A property of a scope and all scopes inside it. *)
Inductive everywhere (P : Scope -> Prop) (s : Scope) : Prop :=
| Everywhere : P s -> (forall c, In (ISub c) (sc_items s) -> everywhere P c) -> everywhere P s.

(** A reference made where the items before [bound] are known names something that is there. *)
Definition ref_ok (s : Scope) (bound : nat) (r : Ref) : Prop :=
  match r with
  | RLocal i => i < bound /\ exists n, nth_error (sc_items s) i = Some (IOp n)
  | RChildExport i j => i < bound /\ exists c, nth_error (sc_items s) i = Some (ISub c) /\ j < length (sc_exports c)
  | RImport i => i < length (sc_imports s)
  | RVar i => i < length (sc_vars s)
  end.
(** Items name earlier items; binds and exports name any. *)
Definition refs_ok (s : Scope) : Prop :=
  (forall n it r, nth_error (sc_items s) n = Some it -> In r (item_refs it) -> ref_ok s n r) /\
  (forall b, In b (sc_binds s) -> ref_ok s (length (sc_items s)) (bi_value b)) /\
  (forall e, In e (sc_exports s) -> ref_ok s (length (sc_items s)) (ex_value e)).

(** Operators that delay records, and those that look at the round or delay again. *)
Definition delays (op : LinearOp) : bool := match op with LEnterAt _ => true | _ => false end.
Definition times (op : LinearOp) : bool := match op with LEnterAt _ | LLiftIter => true | _ => false end.
(** What a reference names was delayed by a chain of linear operators of this scope. *)
Inductive delayed_here (s : Scope) : Ref -> Prop :=
| DelayedNow j r ops : nth_error (sc_items s) j = Some (IOp (NLinear r ops)) -> existsb delays ops = true -> delayed_here s (RLocal j)
| DelayedBefore j r ops : nth_error (sc_items s) j = Some (IOp (NLinear r ops)) -> delayed_here s r -> delayed_here s (RLocal j).
(** No such chain reaches, as another operator, an [enter_at] or [lift_iter]. *)
Definition tame (s : Scope) : Prop :=
  forall n r ops, nth_error (sc_items s) n = Some (IOp (NLinear r ops)) -> existsb times ops = true -> ~ delayed_here s r.

(** Nothing is left for the rewrites to do: no arrangement of an arrangement, no linear operator that is the
    only use of another, no operator twice. *)
Definition all_refs (s : Scope) : list Ref := flat_map item_refs (sc_items s) ++ map bi_value (sc_binds s) ++ map ex_value (sc_exports s).
Definition used (s : Scope) (j : nat) : nat :=
  length (filter (fun r => match r with RLocal i | RChildExport i _ => i =? j | _ => false end) (all_refs s)).
Definition settled (s : Scope) : Prop :=
  (forall i j n, nth_error (sc_items s) i = Some (IOp (NArrange (RLocal j))) -> nth_error (sc_items s) j = Some (IOp n) ->
     match n with NArrange _ | NReduce _ _ => False | _ => True end) /\
  (forall i j ops r iops, nth_error (sc_items s) i = Some (IOp (NLinear (RLocal j) ops)) ->
     nth_error (sc_items s) j = Some (IOp (NLinear r iops)) -> used s j <> 1) /\
  (forall i j n, nth_error (sc_items s) i = Some (IOp n) -> nth_error (sc_items s) j = Some (IOp n) -> i = j).

(** A collection as of a moment: its updates up to then, as if they had all been there from the start. *)
Definition as_of (n : nat) (c : list iupdate) : list iupdate :=
  flat_map (fun '(d, (m, point), r) => if m <=? n then [(d, (0%nat, point), r)] else []) c.
