(** Model of interactive/src/lower.rs: from statements to the tree of scopes.  [None] is a panic.

    Hash maps are lists of pairs, of which the first with the key counts; ordered sets of names are sorted lists. *)
From Verif Require Export Model.ScopeIrM.
Local Open Scope nat_scope.

(* parse/mod.rs:100-129 *)
Inductive Expr :=
| EInput (n : nat)
| EImport (name : string)
| EName (name : string)
| EQualified (scope field : string)
| EMap (e : Expr) (p : Projection)
| EJoin (l r : Expr) (p : Projection)
| EReduce (e : Expr) (r : Reducer)
| EFilter (e : Expr) (t : Term)
| ENegate (e : Expr)
| EEnterAt (e : Expr) (t : Term)
| ELiftIter (e : Expr)
| EFlatMap (e : Expr) (t : Term)
| EInspect (e : Expr) (label : string)
| EConcat (es : list Expr)
| EArrange (e : Expr).
(* parse/mod.rs:132-139 *)
Inductive Stmt :=
| SLet (name : string) (e : Expr)
| SVar (name : string) (e : Expr)
| SScope (name : string) (body : list Stmt)
| SExport (name : string) (e : Expr).

(** ** Names *)
Fixpoint lookup {A} (m : list (string * A)) (n : string) : option A :=
  match m with [] => None | (k, v) :: m => if String.eqb k n then Some v else lookup m n end.
(* BTreeSet::insert *)
Fixpoint set_add (x : string) (l : list string) : list string :=
  match l with
  | [] => [x]
  | y :: r => match String.compare x y with Lt => x :: y :: r | Eq => y :: r | Gt => y :: set_add x r end
  end.
Definition set_union (xs l : list string) : list string := fold_left (fun l x => set_add x l) xs l.
Definition mem (x : string) (l : list string) : bool := existsb (String.eqb x) l.

(* lower.rs:45-58 expr_free_names, in the order of insertion *)
Fixpoint expr_names (e : Expr) : list string :=
  match e with
  | EInput _ | EImport _ => []
  | EName n => [n]
  | EQualified scope _ => [scope]
  | EMap e _ | EReduce e _ | EFilter e _ | ENegate e | EEnterAt e _ | ELiftIter e | EFlatMap e _ | EInspect e _ | EArrange e => expr_names e
  | EJoin l r _ => expr_names l ++ expr_names r
  | EConcat es => flat_map expr_names es
  end.
(* lower.rs:62-79 collect_body_free_names: the names of the statements, and those used and not among them *)
Definition stmt_name (st : Stmt) : list string :=
  match st with SLet n _ | SVar n _ | SScope n _ => [n] | SExport _ _ => [] end.
Fixpoint stmt_uses (st : Stmt) : list string :=
  match st with
  | SLet _ e | SVar _ e | SExport _ e => expr_names e
  | SScope _ b => filter (fun n => negb (mem n (flat_map stmt_name b))) (set_union (flat_map stmt_uses b) [])
  end.
Definition body_free (body : list Stmt) : list string :=
  filter (fun n => negb (mem n (flat_map stmt_name body))) (set_union (flat_map stmt_uses body) []).
(* lower.rs:22-41 expr_deps, scope_body_deps *)
Definition deps_of (free defined : list string) (self_name : string) : list string :=
  filter (fun n => negb (String.eqb n self_name) && mem n defined) (set_union free []).

(* lower.rs:300-311 collect_qualified: the fields of [scope] in [e], added to those known *)
Fixpoint collect_qualified (e : Expr) (scope : string) (out : list string) : list string :=
  match e with
  | EQualified s f => if String.eqb s scope && negb (mem f out) then out ++ [f] else out
  | EMap e _ | EFilter e _ | ENegate e | EEnterAt e _ | EFlatMap e _ | ELiftIter e | EReduce e _ | EInspect e _ | EArrange e => collect_qualified e scope out
  | EJoin l r _ => collect_qualified r scope (collect_qualified l scope out)
  | EConcat es => fold_left (fun out e => collect_qualified e scope out) es out
  | EInput _ | EImport _ | EName _ => out
  end.
(* lower.rs:289-298 qualified_fields *)
Definition qualified_fields (body : list Stmt) (scope : string) : list string :=
  fold_left (fun out st => match st with SLet _ e | SVar _ e | SExport _ e => collect_qualified e scope out | SScope _ _ => out end) body [].

(** ** Expressions *)
(* lower.rs:97-106 ScopeLower, without [is_root] *)
Record LS := { ls_items : list Item; ls_imports : list Import; ls_inputs : list (nat * nat); ls_traces : list (string * nat);
  ls_env : list (string * Ref); ls_children : list (string * nat); ls_fields : list (string * list string) }.
Definition ls_with_env (s : LS) env := {| ls_items := ls_items s; ls_imports := ls_imports s; ls_inputs := ls_inputs s; ls_traces := ls_traces s;
  ls_env := env; ls_children := ls_children s; ls_fields := ls_fields s |}.
(* lower.rs:109-113 push *)
Definition ls_push (s : LS) (it : Item) : LS := {| ls_items := ls_items s ++ [it]; ls_imports := ls_imports s; ls_inputs := ls_inputs s; ls_traces := ls_traces s;
  ls_env := ls_env s; ls_children := ls_children s; ls_fields := ls_fields s |}.
Definition push_op (n : Node) (s : LS) : Ref * LS := (RLocal (length (ls_items s)), ls_push s (IOp n)).
(* lower.rs:114-121 input_ref; the name of the import is not modelled: it is not read *)
Definition input_ref (root : bool) (n : nat) (s : LS) : option (Ref * LS) :=
  if (root : bool) then
    match find (fun p => fst p =? n) (ls_inputs s) with
    | Some (_, i) => Some (RImport i, s)
    | None =>
        let i := length (ls_imports s) in
        Some (RImport i, {| ls_items := ls_items s; ls_imports := ls_imports s ++ [{| im_name := "input"; im_from := SInput n |}];
          ls_inputs := (n, i) :: ls_inputs s; ls_traces := ls_traces s; ls_env := ls_env s; ls_children := ls_children s; ls_fields := ls_fields s |})
    end
  else None.
(* lower.rs:122-129 trace_ref *)
Definition trace_ref (root : bool) (name : string) (s : LS) : option (Ref * LS) :=
  if (root : bool) then
    match lookup (ls_traces s) name with
    | Some i => Some (RImport i, s)
    | None =>
        let i := length (ls_imports s) in
        Some (RImport i, {| ls_items := ls_items s; ls_imports := ls_imports s ++ [{| im_name := name; im_from := STrace name |}];
          ls_inputs := ls_inputs s; ls_traces := (name, i) :: ls_traces s; ls_env := ls_env s; ls_children := ls_children s; ls_fields := ls_fields s |})
    end
  else None.
Fixpoint position (f : string) (fs : list string) : option nat :=
  match fs with [] => None | g :: fs => if String.eqb g f then Some 0 else option_map S (position f fs) end.
(* lower.rs:130-135 qualified_ref *)
Definition qualified_ref (scope field : string) (s : LS) : option Ref :=
  i <- lookup (ls_children s) scope; fields <- lookup (ls_fields s) scope; j <- position field fields; Some (RChildExport i j).
(* lower.rs:136-165 lower_expr *)
Fixpoint lower_expr (root : bool) (e : Expr) (s : LS) : option (Ref * LS) :=
  match e with
  | EInput n => input_ref root n s
  | EImport name => trace_ref root name s
  | EName name => r <- lookup (ls_env s) name; Some (r, s)
  | EQualified sc f => r <- qualified_ref sc f s; Some (r, s)
  | EMap e p => ' (r, s) <- lower_expr root e s; Some (push_op (NLinear r [LProject p]) s)
  | EFilter e c => ' (r, s) <- lower_expr root e s; Some (push_op (NLinear r [LFilter c]) s)
  | ENegate e => ' (r, s) <- lower_expr root e s; Some (push_op (NLinear r [LNegate]) s)
  | EEnterAt e f => ' (r, s) <- lower_expr root e s; Some (push_op (NLinear r [LEnterAt f]) s)
  | EFlatMap e t => ' (r, s) <- lower_expr root e s; Some (push_op (NLinear r [LFlatMap t]) s)
  | ELiftIter e => ' (r, s) <- lower_expr root e s; Some (push_op (NLinear r [LLiftIter]) s)
  | EArrange e => ' (r, s) <- lower_expr root e s; Some (push_op (NArrange r) s)
  | EJoin l r p =>
      ' (lr, s) <- lower_expr root l s; let (la, s) := push_op (NArrange lr) s in
      ' (rr, s) <- lower_expr root r s; let (ra, s) := push_op (NArrange rr) s in
      Some (push_op (NJoin la ra p) s)
  | EReduce e red => ' (r, s) <- lower_expr root e s; let (a, s) := push_op (NArrange r) s in Some (push_op (NReduce a red) s)
  | EInspect e l => ' (r, s) <- lower_expr root e s; Some (push_op (NInspect r l) s)
  | EConcat es =>
      let fix each (es : list Expr) (s : LS) : option (list Ref * LS) :=
        match es with [] => Some ([], s) | e :: es => ' (r, s) <- lower_expr root e s; ' (rs, s) <- each es s; Some (r :: rs, s) end in
      ' (rs, s) <- each es s; Some (push_op (NConcat rs) s)
  end.

(** ** Scopes *)
(* lower.rs:190-200: names from the scope around *)
Fixpoint import_names (names : list string) (parent_env : list (string * Ref)) (s : LS) : option LS :=
  match names with
  | [] => Some s
  | name :: names =>
      from <- lookup parent_env name;
      import_names names parent_env {| ls_items := ls_items s; ls_imports := ls_imports s ++ [{| im_name := name; im_from := SParent from |}];
        ls_inputs := ls_inputs s; ls_traces := ls_traces s; ls_env := (name, RImport (length (ls_imports s))) :: ls_env s;
        ls_children := ls_children s; ls_fields := ls_fields s |}
  end.
(* the work on a statement: the expression of a [let], or how to lower the scope, given the environment and
   the fields wanted of it *)
Definition closure := list (string * Ref) -> list string -> option Scope.
Inductive work := WLet (e : Expr) | WScope (c : closure).
(* lower.rs:203-215: the order of lets and scopes.  They are kept in maps by their names; here with their work.  If two have one
   name, the second is not found in [deps] when it is looked for. *)
Fixpoint pending_of (body : list (Stmt * option closure)) : list (string * work) :=
  match body with
  | [] => []
  | (SLet n e, _) :: body => (n, WLet e) :: pending_of body
  | (SScope n _, Some c) :: body => (n, WScope c) :: pending_of body
  | _ :: body => pending_of body
  end.
Fixpoint vars_of (body : list Stmt) : list (string * Expr) :=
  match body with [] => [] | SVar n e :: body => (n, e) :: vars_of body | _ :: body => vars_of body end.
Fixpoint exports_of (body : list Stmt) : list (string * Expr) :=
  match body with [] => [] | SExport n e :: body => (n, e) :: exports_of body | _ :: body => exports_of body end.
Fixpoint defined_of (body : list Stmt) : list string :=
  match body with [] => [] | SLet n _ :: body | SScope n _ :: body => n :: defined_of body | _ :: body => defined_of body end.
(* lower.rs:229-233 *)
Fixpoint deps_table (body : list Stmt) (defined : list string) : list (string * list string) :=
  match body with
  | [] => []
  | SLet n e :: body => (n, deps_of (expr_names e) defined n) :: deps_table body defined
  | SScope n b :: body => (n, deps_of (body_free b) defined n) :: deps_table body defined
  | _ :: body => deps_table body defined
  end.
(* lower.rs:218-225 *)
Fixpoint declare_vars (vs : list (string * Expr)) (idx : nat) (s : LS) : LS :=
  match vs with
  | [] => s
  | (name, _) :: vs => declare_vars vs (S idx) (ls_with_env s ((name, RVar idx) :: ls_env s))
  end.
(* lower.rs:219,224: the last index of the name *)
Fixpoint var_id (vs : list (string * Expr)) (idx : nat) (name : string) : option nat :=
  match vs with
  | [] => None
  | (n, _) :: vs => match var_id vs (S idx) name with Some i => Some i | None => if String.eqb n name then Some idx else None end
  end.
(* lower.rs:238-241: the first whose dependencies are lowered, and the others *)
Fixpoint take_ready {W} (deps : list (string * list string)) (pending : list (string * W)) : option (string * W * list (string * W)) :=
  match pending with
  | [] => None
  | (n, w) :: pending =>
      d <- lookup deps n;
      match d with
      | [] => Some (n, w, pending)
      | _ => ' (p, rest) <- take_ready deps pending; Some (p, (n, w) :: rest)
      end
  end.
(* lower.rs:242-243 *)
Definition done_with (name : string) (deps : list (string * list string)) : list (string * list string) :=
  map (fun p => (fst p, filter (fun d => negb (String.eqb d name)) (snd p))) (filter (fun p => negb (String.eqb (fst p) name)) deps).
(* lower.rs:244-259 *)
Definition do_work (root : bool) (body : list Stmt) (name : string) (w : work) (s : LS) : option LS :=
  match w with
  | WLet e => ' (r, s) <- lower_expr root e s; Some (ls_with_env s ((name, r) :: ls_env s))
  | WScope lower =>
      let wanted := qualified_fields body name in
      child <- lower (ls_env s) wanted;
      Some {| ls_items := ls_items s ++ [ISub child]; ls_imports := ls_imports s; ls_inputs := ls_inputs s; ls_traces := ls_traces s; ls_env := ls_env s;
        ls_children := (name, length (ls_items s)) :: ls_children s; ls_fields := (name, wanted) :: ls_fields s |}
  end.
(* lower.rs:236-260; [fuel] is the number of pending items *)
Fixpoint lower_pending (root : bool) (body : list Stmt) (fuel : nat) (pending : list (string * work)) (deps : list (string * list string)) (s : LS) : option LS :=
  match pending with
  | [] => Some s
  | _ =>
      match fuel with
      | 0 => None
      | S fuel =>
          ' (name, w, pending) <- take_ready deps pending;
          s <- do_work root body name w s;
          lower_pending root body fuel pending (done_with name deps) s
      end
  end.
(* lower.rs:263-267 *)
Fixpoint lower_binds (root : bool) (all vs : list (string * Expr)) (s : LS) : option (list Bind * LS) :=
  match vs with
  | [] => Some ([], s)
  | (name, e) :: vs =>
      ' (r, s) <- lower_expr root e s;
      i <- var_id all 0 name;
      ' (bs, s) <- lower_binds root all vs s;
      Some ({| bi_var := i; bi_value := r |} :: bs, s)
  end.
(* lower.rs:272-276 *)
Fixpoint lower_exports (root : bool) (es : list (string * Expr)) (s : LS) : option (list Export * LS) :=
  match es with
  | [] => Some ([], s)
  | (name, e) :: es =>
      ' (r, s) <- lower_expr root e s;
      ' (xs, s) <- lower_exports root es s;
      Some ({| ex_name := name; ex_value := r |} :: xs, s)
  end.
(* lower.rs:277-283 *)
Definition field_exports (wanted : list string) (s : LS) : option (list Export) :=
  mapO (fun f => r <- lookup (ls_env s) f; Some {| ex_name := f; ex_value := r |}) wanted.
Definition ls_new : LS := {| ls_items := []; ls_imports := []; ls_inputs := []; ls_traces := []; ls_env := []; ls_children := []; ls_fields := [] |}.
(* lower.rs:168-286 lower_scope_tree; each scope of the body comes with its own lowering *)
Definition lower_scope (root : bool) (name : string) (body : list (Stmt * option closure)) (parent_env : list (string * Ref)) (wanted : list string) : option Scope :=
  let stmts := map fst body in
  s <- import_names (if root then [] else body_free stmts) parent_env ls_new;
  let vs := vars_of stmts in
  let s := declare_vars vs 0 s in
  let pending := pending_of body in
  s <- lower_pending root stmts (length pending) pending (deps_table stmts (defined_of stmts)) s;
  ' (binds, s) <- lower_binds root vs vs s;
  ' (exports, s) <- (if root then lower_exports root (exports_of stmts) s else es <- field_exports wanted s; Some (es, s));
  Some (MkScope name (ls_imports s) (map fst vs) (ls_items s) binds exports).
Fixpoint lower_stmt (st : Stmt) : option closure :=
  match st with
  | SScope n b => Some (fun parent_env wanted => lower_scope false n (map (fun st => (st, lower_stmt st)) b) parent_env wanted)
  | _ => None
  end.
(* lower.rs:90-93 lower_tree *)
Definition lower_tree (stmts : list Stmt) : option Scope :=
  lower_scope true "root" (map (fun st => (st, lower_stmt st)) stmts) [] [].
