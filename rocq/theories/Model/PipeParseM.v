(** Model of interactive/src/parse/pipe.rs: the parser of the pipe syntax, from tokens on, and of [build_builtin]
    of interactive/src/parse/mod.rs.

    [None] is a panic, or that the fuel ran out: the public functions give more than accepted texts need.  The
    tokens that remain stand for the position.  [as usize] of an integer token is exact, as the tokenizer makes no negative ones. *)
From Coq Require Import String.
From Verif Require Export Model.LowerM.
Local Open Scope nat_scope.

(* pipe.rs:58-65, and applicative.rs:8-16: the two syntaxes have types of their own, of which this is the union; the
   last three are of the applicative syntax only *)
Inductive Tok :=
| KLet | KVar | KExport | KCon | KCase | KFold
| KInput | KImport | KKey | KMap | KJoin | KMin | KDistinct | KCount | KCollect | KArrange | KNegate | KFilter | KEnterAt | KLiftIter | KFlatMap | KInspect
| KIdent (s : string) | KInt (n : nat) | KStr (s : string)
| KDollar | KCaret | KLParen | KRParen | KLBrace | KRBrace | KLBracket | KRBracket
| KComma | KSemi | KColon | KColonColon | KEq | KEqEq | KNotEq | KLt | KLtEq | KGt | KGtEq | KAndAnd | KFatArrow
| KPipe | KPlus | KMinus | KStar | KEof
| KScope | KReduce | KConcat.

(* pipe.rs:138-150: what the parser knows: constructors, binders with the innermost first, and their number *)
Record Ctx := { cx_cons : list (string * (nat * nat)); cx_binders : list (string * nat * nat); cx_depth : nat }.
Definition deeper (d : nat) (cx : Ctx) : Ctx := {| cx_cons := cx_cons cx; cx_binders := cx_binders cx; cx_depth := cx_depth cx + d |}.
(* 451-453 *)
Definition bind_names (names : list string) (cx : Ctx) : Ctx :=
  {| cx_cons := cx_cons cx;
     cx_binders := rev (combine (map (fun n => (n, S (cx_depth cx))) names) (seq 0 (length names))) ++ cx_binders cx;
     cx_depth := S (cx_depth cx) |}.
(* 182-186 *)
Fixpoint find_binder (bs : list (string * nat * nat)) (name : string) : option (nat * nat) :=
  match bs with [] => None | (n, level, field) :: bs => if String.eqb n name then Some (level, field) else find_binder bs name end.
Definition resolve_binder (cx : Ctx) (name : string) : option Term :=
  ' (level, field) <- find_binder (cx_binders cx) name; Some (TProj (TBound (cx_depth cx - level)) field).

(* parse/mod.rs:144-163; "case" and "fold" cannot be reached from this syntax, where they are tokens *)
Definition build_builtin (name : string) (args : list Term) : option Term :=
  if String.eqb name "tuple" then Some (TTuple args) else
  if String.eqb name "list" then Some (TList args) else
  if (String.eqb name "inject" || String.eqb name "variant")%bool then match args with [g; t] => Some (TInject g t) | _ => None end else
  if String.eqb name "case" then match args with s :: a :: arms => Some (TCase s (a :: arms) None) | _ => None end else
  if String.eqb name "fold" then match args with [l; i; s] => Some (TFold l i s) | _ => None end else
  if String.eqb name "proj" then match args with [t; TInt i] => Some (TProj t (Z.to_nat i)) | _ => None end else
  if String.eqb name "len" then match args with [t] => Some (TUnary ULen t) | _ => None end else
  if String.eqb name "istag" then match args with [TInt g; t] => Some (TUnary (UIsTag (as_u32 g)) t) | _ => None end else
  if String.eqb name "not" then match args with [t] => Some (TUnary UNot t) | _ => None end else
  if String.eqb name "or" then match args with [a; b] => Some (TBinary BOr a b) | _ => None end else
  if String.eqb name "if" then match args with [c; t; e] => Some (TIf c t e) | _ => None end else
  if String.eqb name "hash" then match args with b :: k :: ks => Some (THash (b :: k :: ks)) | _ => None end else
  None.

(* 382-390, 492-495: a name called with arguments *)
Definition call (cx : Ctx) (f : string) (args : list Term) : option Term :=
  match lookup (cx_cons cx) f with
  | Some (tag, arity) => if (length args =? arity)%nat then Some (TInject (TInt (Z.of_nat tag)) (TTuple args)) else None
  | None => build_builtin f args
  end.
(* 462-475: the arms by tag, and the default *)
Fixpoint arm_for (tagged : list (nat * Term)) (t : nat) : option Term :=
  match tagged with [] => None | (t', a) :: tagged => if (t' =? t)%nat then Some a else arm_for tagged t end.
Definition arm_count (tagged : list (nat * Term)) : nat := fold_left (fun m x => Nat.max m (S (fst x))) tagged 0.
Definition make_case (scrutinee : Term) (tagged : list (nat * Term)) (default : option Term) : option Term :=
  arms <- mapO (fun t => match arm_for tagged t with Some a => Some a | None => default end) (seq 0 (arm_count tagged));
  Some (TCase scrutinee arms default).

(* 400-405: field projections after a primary term *)
Fixpoint projs (base : Term) (ts : list Tok) : option (Term * list Tok) :=
  match ts with
  | KLBracket :: KInt i :: KRBracket :: ts => projs (TProj base i) ts
  | KLBracket :: _ => None
  | [] => None
  | _ => Some (base, ts)
  end.
(* 442-447: the binders of a pattern, after the opening parenthesis, up to and with the closing one *)
Fixpoint more_names (ts : list Tok) : option (list string * list Tok) :=
  match ts with
  | KRParen :: ts => Some ([], ts)
  | KComma :: KIdent x :: ts => ' (xs, ts) <- more_names ts; Some (x :: xs, ts)
  | _ => None
  end.
Definition names (ts : list Tok) : option (list string * list Tok) :=
  match ts with
  | KRParen :: ts => Some ([], ts)
  | KIdent x :: ts => ' (xs, ts) <- more_names ts; Some (x :: xs, ts)
  | _ => None
  end.
(* 329-334, 342 *)
Definition cmp_op (k : Tok) : option BinOp :=
  match k with KEqEq => Some BEq | KNotEq => Some BNe | KLt => Some BLt | KLtEq => Some BLe | KGt => Some BGt | KGtEq => Some BGe | _ => None end.
Definition add_op (k : Tok) : option BinOp := match k with KPlus => Some BAdd | KMinus => Some BSub | _ => None end.

Section Terms.
Local Notation parser A := (option (A * list Tok)).

(* 318-325 *)
Fixpoint p_logic (n : nat) (cx : Ctx) (ts : list Tok) {struct n} : parser Term :=
  match n with 0 => None | S n => ' (l, ts) <- p_cmp n cx ts; logic_loop n cx l ts end
with logic_loop (n : nat) (cx : Ctx) (l : Term) (ts : list Tok) {struct n} : parser Term :=
  match n with
  | 0 => None
  | S n => match ts with
           | KAndAnd :: ts => ' (r, ts) <- p_cmp n cx ts; logic_loop n cx (TBinary BAnd l r) ts
           | [] => None
           | _ => Some (l, ts)
           end
  end
(* 327-337 *)
with p_cmp (n : nat) (cx : Ctx) (ts : list Tok) {struct n} : parser Term :=
  match n with
  | 0 => None
  | S n =>
      ' (l, ts) <- p_add n cx ts;
      match ts with
      | [] => None
      | k :: ts' => match cmp_op k with
                    | Some op => ' (r, ts') <- p_add n cx ts'; Some (TBinary op l r, ts')
                    | None => Some (l, ts)
                    end
      end
  end
(* 339-347 *)
with p_add (n : nat) (cx : Ctx) (ts : list Tok) {struct n} : parser Term :=
  match n with 0 => None | S n => ' (l, ts) <- p_mul n cx ts; add_loop n cx l ts end
with add_loop (n : nat) (cx : Ctx) (l : Term) (ts : list Tok) {struct n} : parser Term :=
  match n with
  | 0 => None
  | S n => match ts with
           | [] => None
           | k :: ts' => match add_op k with
                         | Some op => ' (r, ts') <- p_mul n cx ts'; add_loop n cx (TBinary op l r) ts'
                         | None => Some (l, ts)
                         end
           end
  end
(* 349-356 *)
with p_mul (n : nat) (cx : Ctx) (ts : list Tok) {struct n} : parser Term :=
  match n with 0 => None | S n => ' (l, ts) <- p_unary n cx ts; mul_loop n cx l ts end
with mul_loop (n : nat) (cx : Ctx) (l : Term) (ts : list Tok) {struct n} : parser Term :=
  match n with
  | 0 => None
  | S n => match ts with
           | KStar :: ts => ' (r, ts) <- p_unary n cx ts; mul_loop n cx (TBinary BMul l r) ts
           | [] => None
           | _ => Some (l, ts)
           end
  end
(* 358-361 *)
with p_unary (n : nat) (cx : Ctx) (ts : list Tok) {struct n} : parser Term :=
  match n with
  | 0 => None
  | S n => match ts with
           | KMinus :: ts => ' (t, ts) <- p_unary n cx ts; Some (TUnary UNeg t, ts)
           | _ => p_primary n cx ts
           end
  end
(* 363-407, with parse_fold, 411-423, and the heads of parse_pattern_case, 428-432, and of parse_args, 480-483.
   A minus sign, 376, does not get here from [p_unary]. *)
with p_primary (n : nat) (cx : Ctx) (ts : list Tok) {struct n} : parser Term :=
  match n with
  | 0 => None
  | S n =>
      ' (base, ts) <- (match ts with
        | KDollar :: KInt i :: ts => Some (TVar i, ts)
        | KCaret :: KInt k :: ts => Some (TBound k, ts)
        | KInt i :: ts => Some (TInt (Z.of_nat i), ts)
        | KMinus :: ts => ' (t, ts) <- p_unary n cx ts; Some (TUnary UNeg t, ts)
        | KLParen :: ts => ' (t, ts) <- p_logic n cx ts; match ts with KRParen :: ts => Some (t, ts) | _ => None end
        | KCase :: ts =>
            ' (s, ts) <- p_logic n cx ts;
            match ts with
            | KLBrace :: ts => ' (arms, ts) <- case_loop n cx [] None ts; t <- make_case s (fst arms) (snd arms); Some (t, ts)
            | _ => None
            end
        | KFold :: KLParen :: ts =>
            ' (l, ts) <- p_logic n cx ts;
            match ts with
            | KComma :: ts =>
                ' (i, ts) <- p_logic n cx ts;
                match ts with
                | KComma :: ts => ' (s, ts) <- p_logic n (deeper 2 cx) ts; match ts with KRParen :: ts => Some (TFold l i s, ts) | _ => None end
                | _ => None
                end
            | _ => None
            end
        | KIdent f :: KLParen :: KRParen :: ts => t <- call cx f []; Some (t, ts)
        | KIdent f :: KLParen :: ts =>
            ' (a, ts) <- p_logic n cx ts; ' (args, ts) <- args_loop n cx [a] ts; t <- call cx f args; Some (t, ts)
        | KIdent x :: ts => t <- resolve_binder cx x; Some (t, ts)
        | _ => None
        end);
      projs base ts
  end
(* 484-486: the arguments after the first, up to and with the closing parenthesis *)
with args_loop (n : nat) (cx : Ctx) (args : list Term) (ts : list Tok) {struct n} : parser (list Term) :=
  match n with
  | 0 => None
  | S n => match ts with
           | KComma :: ts => ' (a, ts) <- p_logic n cx ts; args_loop n cx (args ++ [a]) ts
           | KRParen :: ts => Some (args, ts)
           | _ => None
           end
  end
(* 433-461: the arms, up to and with the closing brace *)
with case_loop (n : nat) (cx : Ctx) (tagged : list (nat * Term)) (default : option Term) (ts : list Tok) {struct n} : parser (list (nat * Term) * option Term) :=
  match n with
  | 0 => None
  | S n =>
      match ts with
      | KRBrace :: ts => Some (tagged, default, ts)
      | KIdent c :: ts =>
          if String.eqb c "_" then
            match ts with
            | KFatArrow :: ts => ' (d, ts) <- p_logic n cx ts; case_loop n cx tagged (Some d) (match ts with KComma :: ts => ts | _ => ts end)
            | _ => None
            end
          else
            ' (tag, arity) <- lookup (cx_cons cx) c;
            match ts with
            | KLParen :: ts =>
                ' (xs, ts) <- names ts;
                if (length xs =? arity)%nat then
                  match ts with
                  | KFatArrow :: ts => ' (a, ts) <- p_logic n (bind_names xs cx) ts; case_loop n cx (tagged ++ [(tag, a)]) default (match ts with KComma :: ts => ts | _ => ts end)
                  | _ => None
                  end
                else None
            | _ => None
            end
      | _ => None
      end
  end.
End Terms.

(* enough fuel *)
Definition enough (ts : list Tok) : nat := 10 * length ts + 10.
Definition no_context : Ctx := {| cx_cons := []; cx_binders := []; cx_depth := 0 |}.
(* 504 parse_term, from tokens on: what follows the term is not looked at *)
Definition parse_term (ts : list Tok) : option Term := ' (t, _) <- p_logic (enough ts) no_context ts; Some t.
