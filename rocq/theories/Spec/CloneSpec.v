(** What a user of cloned programs relies on: each operator and each variable of the original, however deep,
    is readable where the clone is, with the rounds of the scopes around it written into its records. *)
From Verif Require Export Model.RenderM Model.ExplainCloneM Spec.DdirSpec.
Local Open Scope nat_scope.

(** The scope, read at other places. *)
Definition reading (s : Scope) (rs : list Ref) : Scope :=
  MkScope (sc_name s) (sc_imports s) (sc_vars s) (sc_items s) (sc_binds s) (map (fun r => {| ex_name := ""; ex_value := r |}) rs).

(** Nested scopes import from their parents only. *)
Definition nested_imports (s : Scope) : Prop :=
  forall c, In (ISub c) (sc_items s) -> Forall (fun im => exists r, im_from im = SParent r) (sc_imports c).

(** All the places of a scope: its variables, then its items, a nested scope in place of an operator. *)
Fixpoint sites (s : Scope) : list (list nat * Site) :=
  match s with
  | MkScope _ _ vs its _ _ =>
      map (fun v => ([], SiteVar v)) (seq 0 (length vs)) ++
      (fix go (its : list Item) (n : nat) : list (list nat * Site) :=
         match its with
         | [] => []
         | IOp _ :: its => ([], SiteOp n) :: go its (S n)
         | ISub c :: its => map (fun a => (n :: fst a, snd a)) (sites c) ++ go its (S n)
         end) its 0
  end.

(** What is at a place of a scope, seen from the scope: what a nested scope has at the place, with the round
    written into each record, after leaving the nested scope. *)
Fixpoint site_means (depth : nat) (s : Scope) (imports : list coll) (path : list nat) (x : Site) (c : coll) : Prop :=
  match path with
  | [] => scope_means depth (reading s [match x with SiteOp i => RLocal i | SiteVar i => RVar i end]) imports [c]
  | i :: path =>
      exists child ims inner l, nth_error (sc_items s) i = Some (ISub child) /\
        scope_means depth (reading s (import_refs (sc_imports child))) imports ims /\
        site_means (S depth) child ims path x inner /\
        at_times (left_time (S depth)) (linear_of [LLiftIter] (S depth) inner) = Some l /\ same_coll c l
  end.
