(** Model of interactive/src/ir.rs, of the types of interactive/src/parse/mod.rs, and of the row by row
    operators of interactive/src/backend/vec.rs.

    [None] is a panic.  [i64]s are integers: that additions and products do not overflow is not checked.
    The coordinates of times are natural numbers. *)
From Coq Require Export Strings.String.
From Verif Require Export Base.Lattice Base.Difference Base.Arrays Model.PointStampM Proofs.LatticeP Proofs.PointStampP.
Local Open Scope Z_scope.

(* ir.rs:10 *)
Definition itime := (nat * PointStamp nat)%type.

(* ir.rs:19-25 *)
Inductive Value :=
| VInt (n : Z)
| VTuple (xs : list Value)
| VVariant (tag : Z) (v : Value)
| VList (xs : list Value).

(* ir.rs:29 *)
Definition v_unit : Value := VTuple [].
(* ir.rs:31 *)
Definition truthy (v : Value) : bool := match v with VInt n => negb (n =? 0) | _ => false end.
(* ir.rs:33 *)
Definition as_int (v : Value) : option Z := match v with VInt n => Some n | _ => None end.

(* ir.rs:18: the derived [Ord], by variant and then by fields *)
Fixpoint value_cmp (a b : Value) : comparison :=
  let fix go (xs ys : list Value) : comparison :=
    match xs, ys with
    | [], [] => Eq
    | [], _ => Lt
    | _, [] => Gt
    | x :: xs, y :: ys => match value_cmp x y with Eq => go xs ys | c => c end
    end in
  match a, b with
  | VInt x, VInt y => Z.compare x y
  | VInt _, _ => Lt
  | _, VInt _ => Gt
  | VTuple xs, VTuple ys => go xs ys
  | VTuple _, _ => Lt
  | _, VTuple _ => Gt
  | VVariant t x, VVariant u y => match Z.compare t u with Eq => value_cmp x y | c => c end
  | VVariant _ _, _ => Lt
  | _, VVariant _ _ => Gt
  | VList xs, VList ys => go xs ys
  end.

(* parse/mod.rs:72-83 *)
Inductive UnOp := UNeg | UNot | UIsTag (t : Z) | ULen.
(* parse/mod.rs:85-90 *)
Inductive BinOp := BAdd | BSub | BMul | BEq | BNe | BLt | BLe | BGt | BGe | BAnd | BOr.
(* parse/mod.rs:30-70 *)
Inductive Term :=
| TVar (i : nat)
| TBound (k : nat)
| TInt (n : Z)
| TTuple (fields : list Term)
| TList (fields : list Term)
| TSpread (t : Term)
| TProj (t : Term) (i : nat)
| TInject (tag t : Term)
| TCase (scrutinee : Term) (arms : list Term) (default : option Term)
| TFold (list init step : Term)
| TIf (cond thn els : Term)
| TUnary (op : UnOp) (t : Term)
| TBinary (op : BinOp) (l r : Term)
| THash (args : list Term).
(* parse/mod.rs:94 *)
Record Projection := { p_key : Term; p_val : Term }.
(* parse/mod.rs:96-105 *)
Inductive Reducer := RMin | RDistinct | RCount | RCollect.

Definition two32 : Z := Eval vm_compute in 2 ^ 32.
Definition two64 : Z := Eval vm_compute in 2 ^ 64.
(* [as u32], [as u64] *)
Definition as_u32 (n : Z) : Z := n mod two32.
Definition as_u64 (n : Z) : Z := n mod two64.

(* lib.rs:65-70 *)
Definition hash_u64 (index : Z) : Z :=
  let x := as_u64 (index * 0x9e3779b97f4a7c15) in
  let x := as_u64 (Z.lxor x (Z.shiftr x 30) * 0xbf58476d1ce4e5b9) in
  let x := as_u64 (Z.lxor x (Z.shiftr x 27) * 0x94d049bb133111eb) in
  Z.lxor x (Z.shiftr x 31).

(* ir.rs:176-186 *)
Definition eval_unary (op : UnOp) (v : Value) : option Value :=
  match op with
  | UNeg => n <- as_int v; Some (VInt (- n))
  | UNot => Some (VInt (if truthy v then 0 else 1))
  | UIsTag t => Some (VInt (match v with VVariant tag _ => if tag =? t then 1 else 0 | _ => 0 end))
  | ULen => match v with VTuple xs | VList xs => Some (VInt (Z.of_nat (length xs))) | _ => None end
  end.
(* ir.rs:188-204; the logical operators do not reach it *)
Definition eval_binary (op : BinOp) (l r : Value) : option Value :=
  let b (x : bool) := Some (VInt (if x then 1 else 0)) in
  match op with
  | BAdd => x <- as_int l; y <- as_int r; Some (VInt (x + y))
  | BSub => x <- as_int l; y <- as_int r; Some (VInt (x - y))
  | BMul => x <- as_int l; y <- as_int r; Some (VInt (x * y))
  | BEq => b (match value_cmp l r with Eq => true | _ => false end)
  | BNe => b (match value_cmp l r with Eq => false | _ => true end)
  | BLt => b (match value_cmp l r with Lt => true | _ => false end)
  | BLe => b (match value_cmp l r with Gt => false | _ => true end)
  | BGt => b (match value_cmp l r with Gt => true | _ => false end)
  | BGe => b (match value_cmp l r with Lt => false | _ => true end)
  | BAnd | BOr => None
  end.

(* [env.len() - 1 - k], an index that must exist *)
Definition bound_at (env : list Value) (k : nat) : option Value :=
  if (k <? length env)%nat then nth_error env (length env - 1 - k) else None.

(* ir.rs:147-157 *)
Fixpoint eval_ref (term : Term) (env : list Value) : option Value :=
  match term with
  | TVar i => nth_error env i
  | TBound k => bound_at env k
  | TProj t i => place <- eval_ref t env; match place with VTuple xs | VList xs => nth_error xs i | _ => None end
  | _ => None
  end.

(* ir.rs:61-142 eval.  The environment is a vector, to which binders are pushed for the evaluation of a
   sub-term and from which they are popped after it; the model passes the longer vector instead.
   [build_seq], 160-174, is the local fixpoint [build]. *)
Fixpoint eval (term : Term) (env : list Value) {struct term} : option Value :=
  let fix build (fields : list Term) : option (list Value) :=
    match fields with
    | [] => Some []
    | f :: fields =>
        here <- (match f with
                 | TSpread inner => v <- eval inner env; match v with VTuple xs | VList xs => Some xs | _ => None end
                 | _ => v <- eval f env; Some [v]
                 end);
        rest <- build fields; Some (here ++ rest)
    end in
  match term with
  | TVar i => nth_error env i
  | TBound k => bound_at env k
  | TInt n => Some (VInt n)
  | TTuple fields => xs <- build fields; Some (VTuple xs)
  | TList fields => xs <- build fields; Some (VList xs)
  | TSpread _ => None
  | TProj t i =>
      match eval_ref t env with
      | Some place => match place with VTuple xs | VList xs => nth_error xs i | _ => None end
      | None => v <- eval t env; match v with VTuple xs | VList xs => nth_error xs i | _ => None end
      end
  | TInject tag t => g <- eval tag env; n <- as_int g; v <- eval t env; Some (VVariant (as_u32 n) v)
  | TCase scrutinee arms default =>
      s <- eval scrutinee env;
      match s with
      | VVariant tag payload =>
          let fix arm (arms : list Term) (n : nat) : option (option Value) :=   (* [arms.get(tag)], evaluated *)
            match arms, n with
            | [], _ => None
            | a :: _, 0%nat => Some (eval a (env ++ [payload]))
            | _ :: arms, S n => arm arms n
            end in
          match arm arms (Z.to_nat tag) with
          | Some r => r
          | None => match default with Some d => eval d env | None => None end
          end
      | _ => None
      end
  | TFold list init step =>
      l <- eval list env;
      match l with
      | VList items =>
          acc <- eval init env;
          fold_left (fun acc item => acc <- acc; eval step (env ++ [acc; item])) items (Some acc)
      | _ => None
      end
  | TIf cond thn els => c <- eval cond env; if truthy c then eval thn env else eval els env
  | THash args =>
      match args with
      | [] => None
      | a0 :: args =>
          b <- eval a0 env; bound <- as_int b;
          let fix mix (args : list Term) (acc : Z) : option Z :=
            match args with
            | [] => Some acc
            | a :: args => v <- eval a env; n <- as_int v; mix args (hash_u64 (Z.lxor acc (as_u64 n)))
            end in
          acc <- mix args 0xcbf29ce484222325;
          let h := Z.shiftr acc 1 in
          Some (VInt (if 0 <? bound then h mod bound else h))
      end
  | TUnary op t => v <- eval t env; eval_unary op v
  | TBinary op l r =>
      match op with
      | BAnd => x <- eval l env; if truthy x then y <- eval r env; Some (VInt (if truthy y then 1 else 0)) else Some (VInt 0)
      | BOr => x <- eval l env; if truthy x then Some (VInt 1) else y <- eval r env; Some (VInt (if truthy y then 1 else 0))
      | _ => x <- eval l env; y <- eval r env; eval_binary op x y
      end
  end.

(** ** The row by row operators *)
(* vec.rs:25: a record is a key and a value *)
Definition row := (Value * Value)%type.
Definition iupdate := (row * itime * Z)%type.

(* ir.rs:36-53 *)
Inductive LinearOp :=
| LProject (p : Projection)
| LFilter (t : Term)
| LNegate
| LEnterAt (t : Term)
| LLiftIter
| LFlatMap (t : Term).

(* vec.rs:33-38 *)
Definition append_iter (val : Value) (iter : nat) : Value :=
  match val with
  | VTuple xs => VTuple (xs ++ [VInt (Z.of_nat iter)])
  | other => VTuple [other; VInt (Z.of_nat iter)]
  end.

(* vec.rs:49-52: the coordinate of the scope's own iteration, zero at the root or when the time has none *)
Definition iter_at_level (level : nat) (t_in : itime) : nat :=
  match level with 0%nat => 0%nat | S idx => nth idx (ps_vec (snd t_in)) 0%nat end.

(* vec.rs:73-77: [256 * (64 - raw.leading_zeros())] *)
Definition enter_delay (raw : Z) : nat :=
  let raw := as_u64 raw in
  Z.to_nat (256 * (if raw =? 0 then 0 else Z.log2 raw + 1)).
(* vec.rs:78-81 *)
Definition enter_time_at (level : nat) (delay : nat) : itime := (0%nat, mk_ps (repeat 0%nat (level - 1) ++ [delay])).

(* vec.rs:56-104: what one operator makes of one result so far.  The result has a time and a difference of
   its own, to be joined to and multiplied with those of the update in the end; [EnterAt] replaces the time. *)
Definition op_results (level iter : nat) (op : LinearOp) (x : row * itime * Z) : option (list (row * itime * Z)) :=
  let '(k, v, t, d) := x in
  match op with
  | LProject p => nk <- eval (p_key p) [k; v]; nv <- eval (p_val p) [k; v]; Some [(nk, nv, t, d)]
  | LFilter cond => b <- eval cond [k; v]; Some (if truthy b then [(k, v, t, d)] else [])
  | LNegate => Some [(k, v, t, - d)]
  | LEnterAt field => b <- eval field [k; v]; raw <- as_int b; Some [(k, v, enter_time_at level (enter_delay raw), d)]
  | LLiftIter => Some [(k, append_iter v iter, t, d)]
  | LFlatMap list_term =>
      l <- eval list_term [k; v];
      match l with
      | VList xs => Some (map (fun pe => (k, VTuple [VInt (Z.of_nat (fst pe)); snd pe], t, d)) (combine (seq 0 (length xs)) xs))
      | _ => None
      end
  end.

(* vec.rs:55-106: all results through one operator *)
Fixpoint op_all (level iter : nat) (op : LinearOp) (rs : list (row * itime * Z)) : option (list (row * itime * Z)) :=
  match rs with
  | [] => Some []
  | x :: rs => h <- op_results level iter op x; r <- op_all level iter op rs; Some (h ++ r)
  end.
(* vec.rs:54-107: the operators one after the other *)
Fixpoint run_ops (level iter : nat) (ops : list LinearOp) (rs : list (row * itime * Z)) : option (list (row * itime * Z)) :=
  match ops with
  | [] => Some rs
  | op :: ops => rs <- op_all level iter op rs; run_ops level iter ops rs
  end.
(* vec.rs:48-108: one update *)
Definition linear_update (ops : list LinearOp) (level : nat) (u : iupdate) : option (list iupdate) :=
  let '(d, t_in, d_in) := u in
  rs <- run_ops level (iter_at_level level t_in) ops [(d, tmin, 1)];
  Some (map (fun x => (fst (fst x), join t_in (snd (fst x)), d_in * snd x)) rs).
(* vec.rs:44-110 render_linear: every update *)
Fixpoint render_linear (ops : list LinearOp) (level : nat) (c : list iupdate) : option (list iupdate) :=
  match c with
  | [] => Some []
  | u :: c => h <- linear_update ops level u; r <- render_linear ops level c; Some (h ++ r)
  end.

(* vec.rs:131-137: what join makes of a pair *)
Definition join_row (p : Projection) (key left right : Value) : option (list row) :=
  k <- eval (p_key p) [key; left; right];
  v <- eval (p_val p) [key; left; right];
  Some [(k, v)].

(* vec.rs:141-157: what reduce makes of a key's values, which are sorted, each with its count *)
Definition reduce_row (r : Reducer) (vals : list (Value * Z)) : list (Value * Z) :=
  match r with
  | RMin => match vals with
            | [] => []
            | (v, _) :: vals => [(fold_left (fun m x => match value_cmp (fst x) m with Lt => fst x | _ => m end) vals v, 1)]
            end
  | RDistinct => [(v_unit, 1)]
  | RCount => let count := fold_left (fun s x => s + snd x) vals 0 in
              if 0 <? count then [(VTuple [VInt count], 1)] else []
  | RCollect => [(VList (flat_map (fun x => repeat (fst x) (Z.to_nat (Z.max (snd x) 0))) vals), 1)]
  end.
