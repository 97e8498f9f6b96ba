(** The scalar terms of the pipe syntax as its documentation describes them: the grammar, and what terms with
    named patterns mean. *)
From Coq Require Import String.
From Verif Require Export Model.PipeParseM.
Local Open Scope nat_scope.

(** ** Terms as written *)
Inductive Pattern := Ctor (c : string) (xs : list string) | Default.
Inductive PT :=
| PRow (n : nat)                              (* $n *)
| PBound (k : nat)                            (* ^k *)
| PInt (n : nat)
| PName (x : string)
| PCall (f : string) (args : list PT)
| PCase (s : PT) (arms : list (Pattern * PT))
| PFold (l i s : PT)
| PNeg (t : PT)
| PBin (op : BinOp) (l r : PT)
| PProj (t : PT) (i : nat).                   (* t[i] *)

(** ** The grammar.  From the weakest to the strongest: [&&]; one comparison; [+] and [-]; [*]; unary minus;
    and what can be indexed.  All but comparisons associate to the left. *)
Inductive level := LLogic | LCmp | LAdd | LMul | LUnary | LPrimary.
Definition comparisons : list (Tok * BinOp) := [(KEqEq, BEq); (KNotEq, BNe); (KLt, BLt); (KLtEq, BLe); (KGt, BGt); (KGtEq, BGe)].
Definition sums : list (Tok * BinOp) := [(KPlus, BAdd); (KMinus, BSub)].
Definition separated (xs : list string) : list Tok :=
  match xs with [] => [] | x :: xs => KIdent x :: flat_map (fun x => [KComma; KIdent x]) xs end.

Inductive reads : level -> list Tok -> PT -> Prop :=
| g_logic ts t : reads LCmp ts t -> reads LLogic ts t
| g_and a x b y : reads LLogic a x -> reads LCmp b y -> reads LLogic (a ++ KAndAnd :: b) (PBin BAnd x y)
| g_one ts t : reads LAdd ts t -> reads LCmp ts t
| g_cmp a x k op b y : reads LAdd a x -> In (k, op) comparisons -> reads LAdd b y -> reads LCmp (a ++ k :: b) (PBin op x y)
| g_sum ts t : reads LMul ts t -> reads LAdd ts t
| g_add a x k op b y : reads LAdd a x -> In (k, op) sums -> reads LMul b y -> reads LAdd (a ++ k :: b) (PBin op x y)
| g_product ts t : reads LUnary ts t -> reads LMul ts t
| g_mul a x b y : reads LMul a x -> reads LUnary b y -> reads LMul (a ++ KStar :: b) (PBin BMul x y)
| g_unary ts t : reads LPrimary ts t -> reads LUnary ts t
| g_neg ts t : reads LUnary ts t -> reads LUnary (KMinus :: ts) (PNeg t)
| g_row n : reads LPrimary [KDollar; KInt n] (PRow n)
| g_bound k : reads LPrimary [KCaret; KInt k] (PBound k)
| g_int n : reads LPrimary [KInt n] (PInt n)
| g_paren ts t : reads LLogic ts t -> reads LPrimary (KLParen :: ts ++ [KRParen]) t
| g_name x : reads LPrimary [KIdent x] (PName x)
| g_call ts f args : reads_args ts args -> reads LPrimary (KIdent f :: KLParen :: ts ++ [KRParen]) (PCall f args)
| g_fold a l b i c s : reads LLogic a l -> reads LLogic b i -> reads LLogic c s ->
    reads LPrimary (KFold :: KLParen :: a ++ KComma :: b ++ KComma :: c ++ [KRParen]) (PFold l i s)
| g_case a s b arms : reads LLogic a s -> reads_arms b arms -> reads LPrimary (KCase :: a ++ KLBrace :: b ++ [KRBrace]) (PCase s arms)
| g_proj ts t i : reads LPrimary ts t -> reads LPrimary (ts ++ [KLBracket; KInt i; KRBracket]) (PProj t i)
with reads_args : list Tok -> list PT -> Prop :=
| g_no_args : reads_args [] []
| g_arg ts t : reads LLogic ts t -> reads_args ts [t]
| g_args a args b t : reads_args a args -> args <> [] -> reads LLogic b t -> reads_args (a ++ KComma :: b) (args ++ [t])
with reads_arms : list Tok -> list (Pattern * PT) -> Prop :=
| g_no_arms : reads_arms [] []
| g_arm p ts t sep rest arms : reads LLogic ts t -> (sep = [] \/ sep = [KComma]) -> reads_arms rest arms ->
    (forall c xs, p = Ctor c xs -> c <> "_"%string) ->
    reads_arms (match p with Default => [KIdent "_"] | Ctor c xs => KIdent c :: KLParen :: separated xs ++ [KRParen] end ++ KFatArrow :: ts ++ sep ++ rest) ((p, t) :: arms).

(** What a term can be followed by: something that does not continue it. *)
Definition ends (ts : list Tok) : Prop :=
  match ts with [] => False | k :: _ => ~ In k [KLParen; KLBracket; KStar; KPlus; KMinus; KEqEq; KNotEq; KLt; KLtEq; KGt; KGtEq; KAndAnd] end.

(** ** What the names in a term stand for, resolved. *)
Fixpoint elab (cx : Ctx) (s : PT) {struct s} : option Term :=
  match s with
  | PRow n => Some (TVar n)
  | PBound k => Some (TBound k)
  | PInt n => Some (TInt (Z.of_nat n))
  | PName x => resolve_binder cx x
  | PCall f args =>
      let fix all (l : list PT) : option (list Term) := match l with [] => Some [] | x :: l => t <- elab cx x; ts <- all l; Some (t :: ts) end in
      ts <- all args; call cx f ts
  | PCase s arms =>
      t <- elab cx s;
      let fix all (l : list (Pattern * PT)) (tagged : list (nat * Term)) (d : option Term) : option (list (nat * Term) * option Term) :=
        match l with
        | [] => Some (tagged, d)
        | (Default, x) :: l => a <- elab cx x; all l tagged (Some a)
        | (Ctor c xs, x) :: l =>
            ' (tag, arity) <- lookup (cx_cons cx) c;
            if (length xs =? arity)%nat then a <- elab (bind_names xs cx) x; all l (tagged ++ [(tag, a)]) d else None
        end in
      ' (tagged, d) <- all arms [] None; make_case t tagged d
  | PFold l i s => l <- elab cx l; i <- elab cx i; s <- elab (deeper 2 cx) s; Some (TFold l i s)
  | PNeg t => t <- elab cx t; Some (TUnary UNeg t)
  | PBin op l r => l <- elab cx l; r <- elab cx r; Some (TBinary op l r)
  | PProj t i => t <- elab cx t; Some (TProj t i)
  end.
Fixpoint elab_args (cx : Ctx) (l : list PT) : option (list Term) := match l with [] => Some [] | x :: l => t <- elab cx x; ts <- elab_args cx l; Some (t :: ts) end.
Fixpoint elab_arms (cx : Ctx) (l : list (Pattern * PT)) (tagged : list (nat * Term)) (d : option Term) : option (list (nat * Term) * option Term) :=
  match l with
  | [] => Some (tagged, d)
  | (Default, x) :: l => a <- elab cx x; elab_arms cx l tagged (Some a)
  | (Ctor c xs, x) :: l =>
      ' (tag, arity) <- lookup (cx_cons cx) c;
      if (length xs =? arity)%nat then a <- elab (bind_names xs cx) x; elab_arms cx l (tagged ++ [(tag, a)]) d else None
  end.
