(** What the scalar terms of the interactive crate compute, by rules and without short cuts, and what its
    reducers keep of a collection. *)
From Coq Require Export Sorting.Sorted.
From Verif Require Export Model.RenderM.
Local Open Scope Z_scope.

Definition parts (v : Value) (xs : list Value) : Prop := v = VTuple xs \/ v = VList xs.
(** A nonzero integer is true, everything else is false. *)
Definition yes (v : Value) : Prop := exists n, v = VInt n /\ n <> 0.
Definition answer (b : bool) : Value := VInt (if b then 1 else 0).
Definition compares (op : BinOp) : Prop := match op with BEq | BNe | BLt | BLe | BGt | BGe => True | _ => False end.
(** Values are ordered: integers before tuples before variants before lists, each by what they consist of. *)
Definition related (op : BinOp) (x y : Value) : Prop :=
  match op with
  | BEq => x = y | BNe => x <> y | BLt => lt x y | BLe => lt x y \/ x = y | BGt => lt y x | BGe => lt y x \/ x = y
  | _ => False
  end.

(** [computes env t v]: in the environment [env] the term [t] has the value [v].  A term without a value panics. *)
Inductive computes : list Value -> Term -> Value -> Prop :=
| CVar env i v : nth_error env i = Some v -> computes env (TVar i) v
| CBound env k v : nth_error (rev env) k = Some v -> computes env (TBound k) v
| CInt env n : computes env (TInt n) (VInt n)
| CTuple env fs xs : fields env fs xs -> computes env (TTuple fs) (VTuple xs)
| CList env fs xs : fields env fs xs -> computes env (TList fs) (VList xs)
| CProj env t i v xs x : computes env t v -> parts v xs -> nth_error xs i = Some x -> computes env (TProj t i) x
| CInject env g t n v : computes env g (VInt n) -> computes env t v -> computes env (TInject g t) (VVariant (n mod 2 ^ 32) v)
| CCase env s arms d tag p arm v : computes env s (VVariant tag p) -> nth_error arms (Z.to_nat tag) = Some arm ->
    computes (env ++ [p]) arm v -> computes env (TCase s arms d) v
| CDefault env s arms d tag p v : computes env s (VVariant tag p) -> nth_error arms (Z.to_nat tag) = None ->
    computes env d v -> computes env (TCase s arms (Some d)) v
| CFold env l i step items a v : computes env l (VList items) -> computes env i a -> folds env step a items v -> computes env (TFold l i step) v
| CThen env c t e x v : computes env c x -> yes x -> computes env t v -> computes env (TIf c t e) v
| CElse env c t e x v : computes env c x -> ~ yes x -> computes env e v -> computes env (TIf c t e) v
| CNeg env t n : computes env t (VInt n) -> computes env (TUnary UNeg t) (VInt (- n))
| CNot env t x b : computes env t x -> (b = true <-> ~ yes x) -> computes env (TUnary UNot t) (answer b)
| CIsTag env t g x b : computes env t x -> (b = true <-> exists p, x = VVariant g p) -> computes env (TUnary (UIsTag g) t) (answer b)
| CLen env t x xs : computes env t x -> parts x xs -> computes env (TUnary ULen t) (VInt (Z.of_nat (length xs)))
| CAdd env l r m n : computes env l (VInt m) -> computes env r (VInt n) -> computes env (TBinary BAdd l r) (VInt (m + n))
| CSub env l r m n : computes env l (VInt m) -> computes env r (VInt n) -> computes env (TBinary BSub l r) (VInt (m - n))
| CMul env l r m n : computes env l (VInt m) -> computes env r (VInt n) -> computes env (TBinary BMul l r) (VInt (m * n))
| CCompare env op l r x y b : compares op -> computes env l x -> computes env r y -> (b = true <-> related op x y) -> computes env (TBinary op l r) (answer b)
| CAndNo env l r x : computes env l x -> ~ yes x -> computes env (TBinary BAnd l r) (answer false)
| CAnd env l r x y b : computes env l x -> yes x -> computes env r y -> (b = true <-> yes y) -> computes env (TBinary BAnd l r) (answer b)
| COrYes env l r x : computes env l x -> yes x -> computes env (TBinary BOr l r) (answer true)
| COr env l r x y b : computes env l x -> ~ yes x -> computes env r y -> (b = true <-> yes y) -> computes env (TBinary BOr l r) (answer b)
| CHash env a args bound h : computes env a (VInt bound) -> draws env args 0xcbf29ce484222325 h ->
    computes env (THash (a :: args)) (VInt (if 0 <? bound then (h / 2) mod bound else h / 2))
(** the elements of a tuple or list: a spread gives all its parts *)
with fields : list Value -> list Term -> list Value -> Prop :=
| FNone env : fields env [] []
| FSpread env t v xs fs ys : computes env t v -> parts v xs -> fields env fs ys -> fields env (TSpread t :: fs) (xs ++ ys)
| FOne env t v fs ys : computes env t v -> fields env fs ys -> fields env (t :: fs) (v :: ys)
(** a fold's step sees the value so far and, innermost, the element *)
with folds : list Value -> Term -> Value -> list Value -> Value -> Prop :=
| FoldEnd env step a : folds env step a [] a
| FoldStep env step a x xs b v : computes (env ++ [a; x]) step b -> folds env step b xs v -> folds env step a (x :: xs) v
with draws : list Value -> list Term -> Z -> Z -> Prop :=
| DrawEnd env h : draws env [] h h
| DrawStep env a args acc n h : computes env a (VInt n) -> draws env args (hash_u64 (Z.lxor acc (n mod 2 ^ 64))) h -> draws env (a :: args) acc h.

(** ** Collections and reducers *)
(** How often a record is there at a time, and how often its key is. *)
Definition there (c : coll) (k v : Value) (t : itime) : Z := acc (D:=row) (T:=itime) c (k, v) t.
Definition key_there (c : coll) (k : Value) (t : itime) : Z := acc (D:=Value) (T:=itime) (map (fun u => (fst (fst (fst u)), snd (fst u), snd u)) c) k t.
(** It is there once if the condition holds and not otherwise. *)
Definition just_if (P : Prop) (n : Z) : Prop := P /\ n = 1 \/ ~ P /\ n = 0.
Definition least (c : coll) (k v : Value) (t : itime) : Prop := there c k v t <> 0 /\ forall w, there c k w t <> 0 -> v = w \/ lt v w.
(** In order, each as often as it is there. *)
Definition listed (c : coll) (k : Value) (t : itime) (l : list Value) : Prop :=
  StronglySorted (fun x y => x = y \/ lt x y) l /\ forall x, Z.of_nat (length (filter (fun y => eqb y x) l)) = Z.max 0 (there c k x t).
