(** The grammar of the applicative syntax.  Terms and projections are those of the pipe syntax, without
    constructors; no text has the tokens [case] and [fold]. *)
From Coq Require Import String.
From Verif Require Export Model.ApplicativeM Spec.PipeProgSpec.
Local Open Scope nat_scope.

Definition applicative (ts : list Tok) : Prop := ~ In KCase ts /\ ~ In KFold ts.
Definition reducers : list (Tok * Reducer) := [(KMin, RMin); (KDistinct, RDistinct); (KCount, RCount); (KCollect, RCollect)].

Inductive applied : list Tok -> Expr -> Prop :=
| y_input n : applied [KInput; KInt n] (EInput n)
| y_import s : applied [KImport; KStr s] (EImport s)
| y_name x : applied [KIdent x] (EName x)
| y_qualified x f : applied [KIdent x; KColonColon; KIdent f] (EQualified x f)
| y_map a e b p : applied a e -> a_projection [] b p -> applied (KMap :: KLParen :: a ++ KComma :: b ++ [KRParen]) (EMap e p)
| y_join a l b r c p : applied a l -> applied b r -> a_projection [] c p -> applied (KJoin :: KLParen :: a ++ KComma :: b ++ KComma :: c ++ [KRParen]) (EJoin l r p)
| y_reduce a e k r : applied a e -> In (k, r) reducers -> applied (KReduce :: KLParen :: a ++ [KComma; k; KRParen]) (EReduce e r)
| y_filter a e b t : applied a e -> a_term [] b t -> applied (KFilter :: KLParen :: a ++ KComma :: b ++ [KRParen]) (EFilter e t)
| y_negate a e : applied a e -> applied (KNegate :: KLParen :: a ++ [KRParen]) (ENegate e)
| y_enter a e b t : applied a e -> a_term [] b t -> applied (KEnterAt :: KLParen :: a ++ KComma :: b ++ [KRParen]) (EEnterAt e t)
| y_lift a e : applied a e -> applied (KLiftIter :: KLParen :: a ++ [KRParen]) (ELiftIter e)
| y_flatmap a e b t : applied a e -> a_term [] b t -> applied (KFlatMap :: KLParen :: a ++ KComma :: b ++ [KRParen]) (EFlatMap e t)
| y_inspect a e l : applied a e -> applied (KInspect :: KLParen :: a ++ [KComma; KIdent l; KRParen]) (EInspect e l)
| y_concat a es : parts a es -> applied (KConcat :: KLParen :: a ++ [KRParen]) (EConcat es)
| y_arrange a e : applied a e -> applied (KArrange :: KLParen :: a ++ [KRParen]) (EArrange e)
with parts : list Tok -> list Expr -> Prop :=
| y_one a e : applied a e -> parts a [e]
| y_more a es b e : parts a es -> applied b e -> parts (a ++ KComma :: b) (es ++ [e]).

Inductive applicative_program : list Tok -> list Stmt -> Prop :=
| h_end : applicative_program [] []
| h_let x a e ts ss : applied a e -> applicative_program ts ss -> applicative_program (KLet :: KIdent x :: KEq :: a ++ KSemi :: ts) (SLet x e :: ss)
| h_var x a e ts ss : applied a e -> applicative_program ts ss -> applicative_program (KVar :: KIdent x :: KEq :: a ++ KSemi :: ts) (SVar x e :: ss)
| h_export x a e ts ss : applied a e -> applicative_program ts ss -> applicative_program (KExport :: KStr x :: KEq :: a ++ KSemi :: ts) (SExport x e :: ss)
| h_scope x scope a b ts ss : (scope = [] \/ scope = [KScope]) -> applicative_program a b -> applicative_program ts ss ->
    applicative_program (KIdent x :: KColon :: scope ++ KLBrace :: a ++ KRBrace :: ts) (SScope x b :: ss).

(** No sum of a single part: the pipe syntax has none. *)
Fixpoint no_single_sums (e : Expr) : Prop :=
  match e with
  | EInput _ | EImport _ | EName _ | EQualified _ _ => True
  | EMap e _ | EReduce e _ | EFilter e _ | ENegate e | EEnterAt e _ | ELiftIter e | EFlatMap e _ | EInspect e _ | EArrange e => no_single_sums e
  | EJoin l r _ => no_single_sums l /\ no_single_sums r
  | EConcat es => length es <> 1 /\ (fix all (l : list Expr) : Prop := match l with [] => True | x :: l => no_single_sums x /\ all l end) es
  end.
