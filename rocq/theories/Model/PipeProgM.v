(** Model of interactive/src/parse/pipe.rs: collection expressions, statements and programs of the pipe syntax.

    [None] is a panic, or that the fuel ran out: callers give more than accepted texts need. *)
From Coq Require Import String.
From Verif Require Export Model.PipeParseM.
Local Open Scope nat_scope.

(* 141-143: the constructors declared so far; no binders are in scope outside of terms *)
Definition Constructors := list (string * (nat * nat)).
Definition in_terms (cons : Constructors) : Ctx := {| cx_cons := cons; cx_binders := []; cx_depth := 0 |}.
(* 316 *)
Definition p_term (cons : Constructors) (ts : list Tok) : option (Term * list Tok) := p_logic (enough ts) (in_terms cons) ts.
(* 302-312 *)
Definition p_field (cons : Constructors) (ts : list Tok) : option (Term * list Tok) :=
  match ts with
  | KDollar :: KInt n :: ts' => match ts' with KLBracket :: _ => p_term cons ts | _ => Some (TSpread (TVar n), ts') end
  | _ => p_term cons ts
  end.
(* 294-299: the fields after the first *)
Fixpoint field_loop (n : nat) (cons : Constructors) (fields : list Term) (ts : list Tok) : option (list Term * list Tok) :=
  match n with
  | 0 => None
  | S n => match ts with
           | KComma :: ts => ' (f, ts) <- p_field cons ts; field_loop n cons (fields ++ [f]) ts
           | [] => None
           | _ => Some (fields, ts)
           end
  end.
Definition p_fields (cons : Constructors) (stop : Tok -> bool) (ts : list Tok) : option (list Term * list Tok) :=
  match ts with
  | [] => None
  | k :: _ => if stop k then Some ([], ts) else ' (f, ts') <- p_field cons ts; field_loop (S (length ts)) cons [f] ts'
  end.
Definition semi_or_close (k : Tok) : bool := match k with KSemi | KRParen => true | _ => false end.
Definition close (k : Tok) : bool := match k with KRParen => true | _ => false end.
(* 271-290 *)
Definition p_projection (cons : Constructors) (ts : list Tok) : option (Projection * list Tok) :=
  match ts with
  | KLParen :: ts =>
      ' (key, ts) <- p_fields cons semi_or_close ts;
      ' (val, ts) <- (match ts with KSemi :: ts => p_fields cons close ts | _ => Some ([], ts) end);
      match ts with KRParen :: ts => Some ({| p_key := TTuple key; p_val := TTuple val |}, ts) | _ => None end
  | _ => None
  end.
(* a term in parentheses: 260, 263, 264 *)
Definition p_paren_term (cons : Constructors) (ts : list Tok) : option (Term * list Tok) :=
  match ts with KLParen :: ts => ' (t, ts) <- p_term cons ts; match ts with KRParen :: ts => Some (t, ts) | _ => None end | _ => None end.

(* 213-220 *)
Fixpoint p_pipe (n : nat) (cons : Constructors) (ts : list Tok) {struct n} : option (Expr * list Tok) :=
  match n with 0 => None | S n => ' (e, ts) <- p_concat n cons ts; pipe_loop n cons e ts end
with pipe_loop (n : nat) (cons : Constructors) (e : Expr) (ts : list Tok) {struct n} : option (Expr * list Tok) :=
  match n with
  | 0 => None
  | S n => match ts with
           | KPipe :: ts => ' (e, ts) <- p_op n cons e ts; pipe_loop n cons e ts
           | [] => None
           | _ => Some (e, ts)
           end
  end
(* 222-233 *)
with p_concat (n : nat) (cons : Constructors) (ts : list Tok) {struct n} : option (Expr * list Tok) :=
  match n with
  | 0 => None
  | S n =>
      ' (e, ts) <- p_atom n cons ts;
      ' (parts, ts) <- concat_loop n cons [e] ts;
      Some (match parts with [e] => e | _ => EConcat parts end, ts)
  end
with concat_loop (n : nat) (cons : Constructors) (parts : list Expr) (ts : list Tok) {struct n} : option (list Expr * list Tok) :=
  match n with
  | 0 => None
  | S n => match ts with
           | KPlus :: ts => ' (e, ts) <- p_atom n cons ts; concat_loop n cons (parts ++ [e]) ts
           | KMinus :: ts => ' (e, ts) <- p_atom n cons ts; concat_loop n cons (parts ++ [ENegate e]) ts
           | [] => None
           | _ => Some (parts, ts)
           end
  end
(* 235-243 *)
with p_atom (n : nat) (cons : Constructors) (ts : list Tok) {struct n} : option (Expr * list Tok) :=
  match n with
  | 0 => None
  | S n => match ts with
           | KInput :: KInt i :: ts => Some (EInput i, ts)
           | KImport :: KStr s :: ts => Some (EImport s, ts)
           | KIdent x :: KColonColon :: ts => match ts with KIdent f :: ts => Some (EQualified x f, ts) | _ => None end
           | KIdent x :: ts => Some (EName x, ts)
           | KLParen :: ts => ' (e, ts) <- p_pipe n cons ts; match ts with KRParen :: ts => Some (e, ts) | _ => None end
           | _ => None
           end
  end
(* 251-269, with parse_join_arg, 245-249 *)
with p_op (n : nat) (cons : Constructors) (lhs : Expr) (ts : list Tok) {struct n} : option (Expr * list Tok) :=
  match n with
  | 0 => None
  | S n => match ts with
           | KKey :: ts | KMap :: ts => ' (p, ts) <- p_projection cons ts; Some (EMap lhs p, ts)
           | KJoin :: KLParen :: ts =>
               ' (r, ts) <- p_atom n cons ts; ' (r, ts) <- pipe_loop n cons r ts;
               match ts with
               | KComma :: ts => ' (p, ts) <- p_projection cons ts; match ts with KRParen :: ts => Some (EJoin lhs r p, ts) | _ => None end
               | _ => None
               end
           | KMin :: ts => Some (EReduce lhs RMin, ts)
           | KDistinct :: ts => Some (EReduce lhs RDistinct, ts)
           | KCount :: ts => Some (EReduce lhs RCount, ts)
           | KCollect :: ts => Some (EReduce lhs RCollect, ts)
           | KFlatMap :: ts => ' (t, ts) <- p_paren_term cons ts; Some (EFlatMap lhs t, ts)
           | KArrange :: ts => Some (EArrange lhs, ts)
           | KNegate :: ts => Some (ENegate lhs, ts)
           | KFilter :: ts => ' (t, ts) <- p_paren_term cons ts; Some (EFilter lhs t, ts)
           | KEnterAt :: ts => ' (t, ts) <- p_paren_term cons ts; Some (EEnterAt lhs t, ts)
           | KLiftIter :: ts => Some (ELiftIter lhs, ts)
           | KInspect :: KLParen :: KIdent l :: KRParen :: ts => Some (EInspect lhs l, ts)
           | _ => None
           end
  end.
Definition p_expr (cons : Constructors) (ts : list Tok) : option (Expr * list Tok) := p_pipe (enough ts) cons ts.
(* an expression and a semicolon: 190, 191, 199-200 *)
Definition p_assigned (cons : Constructors) (ts : list Tok) : option (Expr * list Tok) :=
  match ts with KEq :: ts => ' (e, ts) <- p_expr cons ts; match ts with KSemi :: ts => Some (e, ts) | _ => None end | _ => None end.
(* 160-179, with parse_stmt, 188-209.  The result has the constructors too: they stay declared. *)
Fixpoint p_program (n : nat) (cons : Constructors) (ts : list Tok) : option (list Stmt * Constructors * list Tok) :=
  match n with
  | 0 => None
  | S n => match ts with
           | KEof :: _ | KRBrace :: _ => Some ([], cons, ts)
           | KCon :: KIdent c :: KLParen :: KInt arity :: KRParen :: KEq :: KInt tag :: KSemi :: ts => p_program n ((c, (tag, arity)) :: cons) ts
           | KLet :: KIdent x :: ts => ' (e, ts) <- p_assigned cons ts; ' (ss, cons, ts) <- p_program n cons ts; Some (SLet x e :: ss, cons, ts)
           | KVar :: KIdent x :: ts => ' (e, ts) <- p_assigned cons ts; ' (ss, cons, ts) <- p_program n cons ts; Some (SVar x e :: ss, cons, ts)
           | KExport :: KStr x :: ts => ' (e, ts) <- p_assigned cons ts; ' (ss, cons, ts) <- p_program n cons ts; Some (SExport x e :: ss, cons, ts)
           | KIdent x :: KColon :: KLBrace :: ts =>
               ' (b, cons, ts) <- p_program n cons ts;
               match ts with
               | KRBrace :: ts => ' (ss, cons, ts) <- p_program n cons ts; Some (SScope x b :: ss, cons, ts)
               | _ => None
               end
           | _ => None
           end
  end.
(* 498 parse, from tokens on: what follows the statements is not looked at *)
Definition parse (ts : list Tok) : option (list Stmt) := ' (ss, _, _) <- p_program (S (length ts)) [] ts; Some ss.
