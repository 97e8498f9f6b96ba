(** What a program's text means: each name is what its statement says, whatever the order of the statements. *)
From Verif Require Export Model.LowerM Model.RenderM.
Local Open Scope nat_scope.

Section Source.
Variables (inputs : nat -> coll) (traces : string -> coll).

(** What an expression makes of the collections that names, and fields of scopes, stand for. *)
Fixpoint expr_means (depth : nat) (env : string -> option coll) (fields : string -> string -> option coll) (e : Expr) (c : coll) : Prop :=
  let linear e op := exists a, expr_means depth env fields e a /\ same_coll c (linear_of [op] depth a) in
  let same e := exists a, expr_means depth env fields e a /\ same_coll c a in
  match e with
  | EInput n => same_coll c (inputs n)
  | EImport name => same_coll c (traces name)
  | EName n => exists a, env n = Some a /\ same_coll c a
  | EQualified s f => exists a, fields s f = Some a /\ same_coll c a
  | EMap e p => linear e (LProject p)
  | EFilter e t => linear e (LFilter t)
  | ENegate e => linear e LNegate
  | EEnterAt e t => linear e (LEnterAt t)
  | ELiftIter e => linear e LLiftIter
  | EFlatMap e t => linear e (LFlatMap t)
  | EJoin l r p => exists a b, expr_means depth env fields l a /\ expr_means depth env fields r b /\ same_coll c (joined_of p a b)
  | EReduce e red => exists a, expr_means depth env fields e a /\ reduced_to red a c
  | EInspect e _ => same e
  | EArrange e => same e
  | EConcat es => exists cs, (fix each (es : list Expr) (cs : list coll) : Prop :=
                                match es, cs with
                                | [], [] => True
                                | e :: es, c :: cs => expr_means depth env fields e c /\ each es cs
                                | _, _ => False
                                end) es cs /\ cs <> [] /\ same_coll c (concat cs)
  end.

(** Names of the body hide those from around it. *)
Definition hide (loc outer : string -> option coll) (n : string) : option coll :=
  match loc n with Some c => Some c | None => outer n end.

(** What a statement says of the names of its body, [loc], and the fields of its scopes. *)
Fixpoint stmt_means (depth : nat) (outer loc : string -> option coll) (fields : string -> string -> option coll) (st : Stmt) : Prop :=
  match st with
  | SLet n e => exists c, loc n = Some c /\ expr_means depth (hide loc outer) fields e c
  | SVar n e => depth <> 0 /\ exists c src next, loc n = Some c /\ expr_means depth (hide loc outer) fields e src /\
      at_times (feedback_time depth) src = Some next /\ same_coll c next
  | SScope n b => exists loc' fields',
      (forall m, loc' m <> None -> In m (flat_map stmt_name b)) /\
      (fix all (b : list Stmt) : Prop := match b with [] => True | st :: b => stmt_means (S depth) (hide loc outer) loc' fields' st /\ all b end) b /\
      forall f c, fields n f = Some c -> exists a left, hide loc' (hide loc outer) f = Some a /\ at_times (left_time (S depth)) a = Some left /\ same_coll c left
  | SExport _ _ => True
  end.
(** The exports of a program. *)
Definition source_means (body : list Stmt) (exports : list coll) : Prop :=
  exists loc fields, (forall m, loc m <> None -> In m (flat_map stmt_name body)) /\
    (forall st, In st body -> stmt_means 0 (fun _ => None) loc fields st) /\
    Forall2 (fun ne c => expr_means 0 loc fields (snd ne) c) (exports_of body) exports.
End Source.

(** No two statements of a body define the same name, here and in all bodies inside. *)
Fixpoint names_apart (st : Stmt) : Prop :=
  match st with
  | SScope _ b => NoDup (flat_map stmt_name b) /\ (fix all (b : list Stmt) : Prop := match b with [] => True | st :: b => names_apart st /\ all b end) b
  | _ => True
  end.
Definition program_apart (body : list Stmt) : Prop := NoDup (flat_map stmt_name body) /\ forall st, In st body -> names_apart st.

(** ** Programs that make sense *)
(** The inputs, imports, names and fields an expression uses. *)
Fixpoint expr_leaves (e : Expr) : list Expr :=
  match e with
  | EInput _ | EImport _ | EName _ | EQualified _ _ => [e]
  | EMap e _ | EReduce e _ | EFilter e _ | ENegate e | EEnterAt e _ | ELiftIter e | EFlatMap e _ | EInspect e _ | EArrange e => expr_leaves e
  | EJoin l r _ => expr_leaves l ++ expr_leaves r
  | EConcat es => flat_map expr_leaves es
  end.
Definition mentions (e : Expr) (n : string) : Prop := In (EName n) (expr_leaves e) \/ exists f, In (EQualified n f) (expr_leaves e).
(** A statement uses a name of the body around it. *)
Inductive needs : Stmt -> string -> Prop :=
| NeedsLet n e m : mentions e m -> needs (SLet n e) m
| NeedsVar n e m : mentions e m -> needs (SVar n e) m
| NeedsExport n e m : mentions e m -> needs (SExport n e) m
| NeedsScope n b st m : In st b -> needs st m -> ~ In m (flat_map stmt_name b) -> needs (SScope n b) m.
(** Names that stand for collections, and those whose statements come in an order: lets and scopes. *)
Definition is_value (body : list Stmt) (n : string) : Prop := exists e, In (SLet n e) body \/ In (SVar n e) body.
Definition is_ordered (body : list Stmt) (n : string) : Prop := (exists e, In (SLet n e) body) \/ (exists b, In (SScope n b) body).
(** A name is seen in a body: it is defined there, or else around it. *)
Definition visible (root : bool) (body : list Stmt) (n : string) : Prop := is_value body n \/ (root = false /\ ~ In n (flat_map stmt_name body)).
(** A name that a body lends as a field: a collection of its own, or one from around it that it uses. *)
Definition is_field (body : list Stmt) (f : string) : Prop :=
  is_value body f \/ (~ In f (flat_map stmt_name body) /\ exists st, In st body /\ needs st f).
Definition expr_ok (root : bool) (body : list Stmt) (e : Expr) : Prop :=
  forall x, In x (expr_leaves e) ->
    match x with
    | EInput _ | EImport _ => root = true
    | EName n => visible root body n
    | EQualified s f => exists b, In (SScope s b) body /\ is_field b f
    | _ => True
    end.
(** Each name is defined once, what is used is there, inputs are read and exports made at the root, and lets and scopes can be put in an
    order in which each comes after those it uses. *)
Inductive body_ok (root : bool) (body : list Stmt) : Prop :=
| BodyOk (rank : string -> nat) :
    NoDup (flat_map stmt_name body) ->
    (forall n e, In (SLet n e) body -> expr_ok root body e /\ forall m, mentions e m -> is_ordered body m -> rank m < rank n) ->
    (forall n e, In (SVar n e) body \/ In (SExport n e) body -> expr_ok root body e) ->
    (forall n e, In (SExport n e) body -> root = true) ->
    (forall n b, In (SScope n b) body -> body_ok false b) ->
    (forall n b, In (SScope n b) body -> forall m, needs (SScope n b) m -> visible root body m /\ (is_ordered body m -> rank m < rank n)) ->
    body_ok root body.

(** Exports are made at the root only. *)
Fixpoint exports_none (st : Stmt) : bool :=
  match st with SExport _ _ => false | SScope _ b => forallb exports_none b | _ => true end.
Definition exports_at_root (body : list Stmt) : Prop := forall n b, In (SScope n b) body -> exports_none (SScope n b) = true.

(** No expression delays records. *)
Fixpoint expr_prompt (e : Expr) : bool :=
  match e with
  | EEnterAt _ _ => false
  | EInput _ | EImport _ | EName _ | EQualified _ _ => true
  | EMap e _ | EReduce e _ | EFilter e _ | ENegate e | ELiftIter e | EFlatMap e _ | EInspect e _ | EArrange e => expr_prompt e
  | EJoin l r _ => expr_prompt l && expr_prompt r
  | EConcat es => forallb expr_prompt es
  end.
Fixpoint stmt_prompt (st : Stmt) : bool :=
  match st with SLet _ e | SVar _ e | SExport _ e => expr_prompt e | SScope _ b => forallb stmt_prompt b end.
