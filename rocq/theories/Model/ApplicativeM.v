(** Model of interactive/src/parse/applicative.rs: the parser of the applicative syntax, from tokens on.

    [None] is a panic, or that the fuel ran out: callers give more than accepted texts need.  The functions are
    those of the pipe syntax, without constructors, binders, [case] and [fold] as tokens, and so are repeated here. *)
From Coq Require Import String.
From Verif Require Export Model.PipeProgM.
Local Open Scope nat_scope.

(* 251-256 *)
Fixpoint q_projs (base : Term) (ts : list Tok) : option (Term * list Tok) :=
  match ts with
  | KLBracket :: KInt i :: KRBracket :: ts => q_projs (TProj base i) ts
  | KLBracket :: _ => None
  | [] => None
  | _ => Some (base, ts)
  end.
(* 198-203, 211 *)
Definition q_cmp_op (k : Tok) : option BinOp :=
  match k with KEqEq => Some BEq | KNotEq => Some BNe | KLt => Some BLt | KLtEq => Some BLe | KGt => Some BGt | KGtEq => Some BGe | _ => None end.
Definition q_add_op (k : Tok) : option BinOp := match k with KPlus => Some BAdd | KMinus => Some BSub | _ => None end.
(* 187-194 *)
Fixpoint q_logic (n : nat) (ts : list Tok) {struct n} : option (Term * list Tok) :=
  match n with 0 => None | S n => ' (l, ts) <- q_cmp n ts; q_logic_loop n l ts end
with q_logic_loop (n : nat) (l : Term) (ts : list Tok) {struct n} : option (Term * list Tok) :=
  match n with
  | 0 => None
  | S n => match ts with
           | KAndAnd :: ts => ' (r, ts) <- q_cmp n ts; q_logic_loop n (TBinary BAnd l r) ts
           | [] => None
           | _ => Some (l, ts)
           end
  end
(* 196-206 *)
with q_cmp (n : nat) (ts : list Tok) {struct n} : option (Term * list Tok) :=
  match n with
  | 0 => None
  | S n =>
      ' (l, ts) <- q_add n ts;
      match ts with
      | [] => None
      | k :: ts' => match q_cmp_op k with
                    | Some op => ' (r, ts') <- q_add n ts'; Some (TBinary op l r, ts')
                    | None => Some (l, ts)
                    end
      end
  end
(* 208-216 *)
with q_add (n : nat) (ts : list Tok) {struct n} : option (Term * list Tok) :=
  match n with 0 => None | S n => ' (l, ts) <- q_mul n ts; q_add_loop n l ts end
with q_add_loop (n : nat) (l : Term) (ts : list Tok) {struct n} : option (Term * list Tok) :=
  match n with
  | 0 => None
  | S n => match ts with
           | [] => None
           | k :: ts' => match q_add_op k with
                         | Some op => ' (r, ts') <- q_mul n ts'; q_add_loop n (TBinary op l r) ts'
                         | None => Some (l, ts)
                         end
           end
  end
(* 218-225 *)
with q_mul (n : nat) (ts : list Tok) {struct n} : option (Term * list Tok) :=
  match n with 0 => None | S n => ' (l, ts) <- q_unary n ts; q_mul_loop n l ts end
with q_mul_loop (n : nat) (l : Term) (ts : list Tok) {struct n} : option (Term * list Tok) :=
  match n with
  | 0 => None
  | S n => match ts with
           | KStar :: ts => ' (r, ts) <- q_unary n ts; q_mul_loop n (TBinary BMul l r) ts
           | [] => None
           | _ => Some (l, ts)
           end
  end
(* 227-230 *)
with q_unary (n : nat) (ts : list Tok) {struct n} : option (Term * list Tok) :=
  match n with
  | 0 => None
  | S n => match ts with
           | KMinus :: ts => ' (t, ts) <- q_unary n ts; Some (TUnary UNeg t, ts)
           | _ => q_primary n ts
           end
  end
(* 232-258, with the head of parse_args, 260-263, and parse_builtin, 271-274 *)
with q_primary (n : nat) (ts : list Tok) {struct n} : option (Term * list Tok) :=
  match n with
  | 0 => None
  | S n =>
      ' (base, ts) <- (match ts with
        | KDollar :: KInt i :: ts => Some (TVar i, ts)
        | KCaret :: KInt k :: ts => Some (TBound k, ts)
        | KInt i :: ts => Some (TInt (Z.of_nat i), ts)
        | KMinus :: ts => ' (t, ts) <- q_unary n ts; Some (TUnary UNeg t, ts)
        | KLParen :: ts => ' (t, ts) <- q_logic n ts; match ts with KRParen :: ts => Some (t, ts) | _ => None end
        | KIdent f :: KLParen :: KRParen :: ts => t <- build_builtin f []; Some (t, ts)
        | KIdent f :: KLParen :: ts =>
            ' (a, ts) <- q_logic n ts; ' (args, ts) <- q_args n [a] ts; t <- build_builtin f args; Some (t, ts)
        | _ => None
        end);
      q_projs base ts
  end
(* 264-268 *)
with q_args (n : nat) (args : list Term) (ts : list Tok) {struct n} : option (list Term * list Tok) :=
  match n with
  | 0 => None
  | S n => match ts with
           | KComma :: ts => ' (a, ts) <- q_logic n ts; q_args n (args ++ [a]) ts
           | KRParen :: ts => Some (args, ts)
           | _ => None
           end
  end.
(* 185 *)
Definition q_term (ts : list Tok) : option (Term * list Tok) := q_logic (enough ts) ts.
(* 171-181 *)
Definition q_field (ts : list Tok) : option (Term * list Tok) :=
  match ts with
  | KDollar :: KInt n :: ts' => match ts' with KLBracket :: _ => q_term ts | _ => Some (TSpread (TVar n), ts') end
  | _ => q_term ts
  end.
(* 163-168 *)
Fixpoint q_field_loop (n : nat) (fields : list Term) (ts : list Tok) : option (list Term * list Tok) :=
  match n with
  | 0 => None
  | S n => match ts with
           | KComma :: ts => ' (f, ts) <- q_field ts; q_field_loop n (fields ++ [f]) ts
           | [] => None
           | _ => Some (fields, ts)
           end
  end.
Definition q_fields (stop : Tok -> bool) (ts : list Tok) : option (list Term * list Tok) :=
  match ts with
  | [] => None
  | k :: _ => if stop k then Some ([], ts) else ' (f, ts') <- q_field ts; q_field_loop (S (length ts)) [f] ts'
  end.
(* 150-161 *)
Definition q_projection (ts : list Tok) : option (Projection * list Tok) :=
  match ts with
  | KLParen :: ts =>
      ' (key, ts) <- q_fields semi_or_close ts;
      ' (val, ts) <- (match ts with KSemi :: ts => q_fields close ts | _ => Some ([], ts) end);
      match ts with KRParen :: ts => Some ({| p_key := TTuple key; p_val := TTuple val |}, ts) | _ => None end
  | _ => None
  end.
(* 276 *)
Definition q_reducer (k : Tok) : option Reducer := match k with KMin => Some RMin | KDistinct => Some RDistinct | KCount => Some RCount | KCollect => Some RCollect | _ => None end.

(* a closing parenthesis, and what is made then *)
Definition closed_by {A} (e : A) (ts : list Tok) : option (A * list Tok) := match ts with KRParen :: ts => Some (e, ts) | _ => None end.
(* 127-145 *)
Fixpoint q_expr (n : nat) (ts : list Tok) {struct n} : option (Expr * list Tok) :=
  match n with
  | 0 => None
  | S n => match ts with
           | KInput :: KInt i :: ts => Some (EInput i, ts)
           | KImport :: KStr s :: ts => Some (EImport s, ts)
           | KMap :: KLParen :: ts => ' (e, ts) <- q_expr n ts; match ts with KComma :: ts => ' (p, ts) <- q_projection ts; closed_by (EMap e p) ts | _ => None end
           | KJoin :: KLParen :: ts =>
               ' (l, ts) <- q_expr n ts;
               match ts with
               | KComma :: ts => ' (r, ts) <- q_expr n ts; match ts with KComma :: ts => ' (p, ts) <- q_projection ts; closed_by (EJoin l r p) ts | _ => None end
               | _ => None
               end
           | KReduce :: KLParen :: ts => ' (e, ts) <- q_expr n ts; match ts with KComma :: k :: ts => r <- q_reducer k; closed_by (EReduce e r) ts | _ => None end
           | KFilter :: KLParen :: ts => ' (e, ts) <- q_expr n ts; match ts with KComma :: ts => ' (t, ts) <- q_term ts; closed_by (EFilter e t) ts | _ => None end
           | KNegate :: KLParen :: ts => ' (e, ts) <- q_expr n ts; closed_by (ENegate e) ts
           | KEnterAt :: KLParen :: ts => ' (e, ts) <- q_expr n ts; match ts with KComma :: ts => ' (t, ts) <- q_term ts; closed_by (EEnterAt e t) ts | _ => None end
           | KLiftIter :: KLParen :: ts => ' (e, ts) <- q_expr n ts; closed_by (ELiftIter e) ts
           | KFlatMap :: KLParen :: ts => ' (e, ts) <- q_expr n ts; match ts with KComma :: ts => ' (t, ts) <- q_term ts; closed_by (EFlatMap e t) ts | _ => None end
           | KInspect :: KLParen :: ts => ' (e, ts) <- q_expr n ts; match ts with KComma :: KIdent l :: ts => closed_by (EInspect e l) ts | _ => None end
           | KConcat :: KLParen :: ts => ' (e, ts) <- q_expr n ts; ' (es, ts) <- q_parts n [e] ts; Some (EConcat es, ts)
           | KArrange :: KLParen :: ts => ' (e, ts) <- q_expr n ts; closed_by (EArrange e) ts
           | KIdent x :: KColonColon :: ts => match ts with KIdent f :: ts => Some (EQualified x f, ts) | _ => None end
           | KIdent x :: ts => Some (EName x, ts)
           | _ => None
           end
  end
(* 140: the parts after the first, up to and with the closing parenthesis *)
with q_parts (n : nat) (es : list Expr) (ts : list Tok) {struct n} : option (list Expr * list Tok) :=
  match n with
  | 0 => None
  | S n => match ts with KComma :: ts => ' (e, ts) <- q_expr n ts; q_parts n (es ++ [e]) ts | KRParen :: ts => Some (es, ts) | _ => None end
  end.
(* an expression and a semicolon: 103, 104, 111-113 *)
Definition q_assigned (ts : list Tok) : option (Expr * list Tok) :=
  match ts with KEq :: ts => ' (e, ts) <- q_expr (S (length ts)) ts; match ts with KSemi :: ts => Some (e, ts) | _ => None end | _ => None end.
(* 95-99, with parse_stmt, 101-123 *)
Fixpoint q_program (n : nat) (ts : list Tok) : option (list Stmt * list Tok) :=
  match n with
  | 0 => None
  | S n => match ts with
           | KEof :: _ | KRBrace :: _ => Some ([], ts)
           | KLet :: KIdent x :: ts => ' (e, ts) <- q_assigned ts; ' (ss, ts) <- q_program n ts; Some (SLet x e :: ss, ts)
           | KVar :: KIdent x :: ts => ' (e, ts) <- q_assigned ts; ' (ss, ts) <- q_program n ts; Some (SVar x e :: ss, ts)
           | KExport :: KStr x :: ts => ' (e, ts) <- q_assigned ts; ' (ss, ts) <- q_program n ts; Some (SExport x e :: ss, ts)
           | KIdent x :: KColon :: ts =>
               match match ts with KScope :: ts => ts | _ => ts end with
               | KLBrace :: ts =>
                   ' (b, ts) <- q_program n ts;
                   match ts with KRBrace :: ts => ' (ss, ts) <- q_program n ts; Some (SScope x b :: ss, ts) | _ => None end
               | _ => None
               end
           | _ => None
           end
  end.
(* 279 *)
Definition q_parse (ts : list Tok) : option (list Stmt) := ' (ss, _) <- q_program (S (length ts)) ts; Some ss.
