(** The grammar of collection expressions, statements and programs of the pipe syntax. *)
From Coq Require Import String.
From Verif Require Export Model.PipeProgM Spec.PipeSpec.
Local Open Scope nat_scope.

(** Terms are as in [PipeSpec]. *)
Definition a_term (cons : Constructors) (ts : list Tok) (t : Term) : Prop := exists s, reads LLogic ts s /\ elab (in_terms cons) s = Some t.
(** A row by itself is a field that stands for all its parts.  Other fields do not begin with a row that is not indexed. *)
Inductive a_field (cons : Constructors) : list Tok -> Term -> Prop :=
| f_row n : a_field cons [KDollar; KInt n] (TSpread (TVar n))
| f_term ts t : a_term cons ts t -> (forall n rest, ts = KDollar :: KInt n :: rest -> hd KEof rest = KLBracket) -> a_field cons ts t.
Inductive some_fields (cons : Constructors) : list Tok -> list Term -> Prop :=
| f_one ts t : a_field cons ts t -> some_fields cons ts [t]
| f_more a ts b t : some_fields cons a ts -> a_field cons b t -> some_fields cons (a ++ KComma :: b) (ts ++ [t]).
Inductive the_fields (cons : Constructors) : list Tok -> list Term -> Prop :=
| f_none : the_fields cons [] []
| f_some ts fs : some_fields cons ts fs -> the_fields cons ts fs.
(** Keys, and then perhaps values. *)
Inductive a_projection (cons : Constructors) : list Tok -> Projection -> Prop :=
| p_keys a ks : the_fields cons a ks -> a_projection cons (KLParen :: a ++ [KRParen]) {| p_key := TTuple ks; p_val := TTuple [] |}
| p_both a ks b vs : the_fields cons a ks -> the_fields cons b vs -> a_projection cons (KLParen :: a ++ KSemi :: b ++ [KRParen]) {| p_key := TTuple ks; p_val := TTuple vs |}.

(** Pipes of operators; sums and differences, which bind stronger; and what these are of. *)
Inductive place := Piped | Added | Atom | Joined.
Definition sum_of (es : list Expr) : Expr := match es with [e] => e | _ => EConcat es end.
Inductive an_expr (cons : Constructors) : place -> list Tok -> Expr -> Prop :=
| x_added ts e : an_expr cons Added ts e -> an_expr cons Piped ts e
| x_piped ts e os f : an_expr cons Piped ts e -> an_op cons os f -> an_expr cons Piped (ts ++ KPipe :: os) (f e)
| x_sum ts es : a_sum cons ts es -> an_expr cons Added ts (sum_of es)
| x_input n : an_expr cons Atom [KInput; KInt n] (EInput n)
| x_import s : an_expr cons Atom [KImport; KStr s] (EImport s)
| x_name x : an_expr cons Atom [KIdent x] (EName x)
| x_qualified x f : an_expr cons Atom [KIdent x; KColonColon; KIdent f] (EQualified x f)
| x_paren ts e : an_expr cons Piped ts e -> an_expr cons Atom (KLParen :: ts ++ [KRParen]) e
| x_joined ts e : an_expr cons Atom ts e -> an_expr cons Joined ts e
| x_joined_piped ts e os f : an_expr cons Joined ts e -> an_op cons os f -> an_expr cons Joined (ts ++ KPipe :: os) (f e)
with a_sum (cons : Constructors) : list Tok -> list Expr -> Prop :=
| s_one ts e : an_expr cons Atom ts e -> a_sum cons ts [e]
| s_plus a es b e : a_sum cons a es -> an_expr cons Atom b e -> a_sum cons (a ++ KPlus :: b) (es ++ [e])
| s_minus a es b e : a_sum cons a es -> an_expr cons Atom b e -> a_sum cons (a ++ KMinus :: b) (es ++ [ENegate e])
with an_op (cons : Constructors) : list Tok -> (Expr -> Expr) -> Prop :=
| o_key ts p : a_projection cons ts p -> an_op cons (KKey :: ts) (fun e => EMap e p)
| o_map ts p : a_projection cons ts p -> an_op cons (KMap :: ts) (fun e => EMap e p)
| o_join a r b p : an_expr cons Joined a r -> a_projection cons b p -> an_op cons (KJoin :: KLParen :: a ++ KComma :: b ++ [KRParen]) (fun e => EJoin e r p)
| o_min : an_op cons [KMin] (fun e => EReduce e RMin)
| o_distinct : an_op cons [KDistinct] (fun e => EReduce e RDistinct)
| o_count : an_op cons [KCount] (fun e => EReduce e RCount)
| o_collect : an_op cons [KCollect] (fun e => EReduce e RCollect)
| o_flatmap ts t : a_term cons ts t -> an_op cons (KFlatMap :: KLParen :: ts ++ [KRParen]) (fun e => EFlatMap e t)
| o_arrange : an_op cons [KArrange] EArrange
| o_negate : an_op cons [KNegate] ENegate
| o_filter ts t : a_term cons ts t -> an_op cons (KFilter :: KLParen :: ts ++ [KRParen]) (fun e => EFilter e t)
| o_enter ts t : a_term cons ts t -> an_op cons (KEnterAt :: KLParen :: ts ++ [KRParen]) (fun e => EEnterAt e t)
| o_lift : an_op cons [KLiftIter] ELiftIter
| o_inspect l : an_op cons [KInspect; KLParen; KIdent l; KRParen] (fun e => EInspect e l).

(** [a_program cons ts ss cons']: statements with the constructors declared before, and those declared after.
    Constructors hold from their declaration on, in scopes and after them. *)
Inductive a_program : Constructors -> list Tok -> list Stmt -> Constructors -> Prop :=
| g_end cons : a_program cons [] [] cons
| g_con cons c arity tag ts ss cons' : a_program ((c, (tag, arity)) :: cons) ts ss cons' ->
    a_program cons (KCon :: KIdent c :: KLParen :: KInt arity :: KRParen :: KEq :: KInt tag :: KSemi :: ts) ss cons'
| g_let cons x a e ts ss cons' : an_expr cons Piped a e -> a_program cons ts ss cons' -> a_program cons (KLet :: KIdent x :: KEq :: a ++ KSemi :: ts) (SLet x e :: ss) cons'
| g_var cons x a e ts ss cons' : an_expr cons Piped a e -> a_program cons ts ss cons' -> a_program cons (KVar :: KIdent x :: KEq :: a ++ KSemi :: ts) (SVar x e :: ss) cons'
| g_export cons x a e ts ss cons' : an_expr cons Piped a e -> a_program cons ts ss cons' -> a_program cons (KExport :: KStr x :: KEq :: a ++ KSemi :: ts) (SExport x e :: ss) cons'
| g_scope cons x a b cons1 ts ss cons' : a_program cons a b cons1 -> a_program cons1 ts ss cons' ->
    a_program cons (KIdent x :: KColon :: KLBrace :: a ++ KRBrace :: ts) (SScope x b :: ss) cons'.

(** No brace is closed that was not opened. *)
Fixpoint opened (ts : list Tok) : nat := match ts with [] => 0 | KLBrace :: ts => S (opened ts) | _ :: ts => opened ts end.
Fixpoint closed (ts : list Tok) : nat := match ts with [] => 0 | KRBrace :: ts => S (closed ts) | _ :: ts => closed ts end.
Definition no_stray_brace (ts : list Tok) : Prop := forall u v, ts = u ++ v -> closed u <= opened u.
