(** What terms of the pipe syntax mean as they are written, with the names of patterns. *)
From Coq Require Import String.
From Verif Require Export Spec.PipeSpec.
Local Open Scope nat_scope.

(** A name stands for a field of the payload that its pattern matched. *)
Definition scope := list (string * (Value * nat)).
Definition part (v : Value) (i : nat) : option Value := match v with VTuple xs | VList xs => nth_error xs i | _ => None end.
(** The names of a pattern, over those outside.  If a pattern repeats a name it is the last that counts. *)
Definition enter (xs : list string) (payload : Value) (ns : scope) : scope := rev (combine xs (map (fun i => (payload, i)) (seq 0 (length xs)))) ++ ns.
Fixpoint all_of {A} (l : list (option A)) : option (list A) := match l with [] => Some [] | x :: l => x <- x; xs <- all_of l; Some (x :: xs) end.
Fixpoint mixes (l : list (option Value)) (acc : Z) : option Z :=
  match l with [] => Some acc | v :: l => v <- v; n <- as_int v; mixes l (hash_u64 (Z.lxor acc (as_u64 n))) end.

(** Builtin functions, of the arguments as written and of their values, which are looked at only when needed. *)
Definition builtin (f : string) (args : list PT) (vals : list (option Value)) : option Value :=
  let truth (v : Value) := VInt (if truthy v then 1 else 0) in
  if String.eqb f "tuple" then xs <- all_of vals; Some (VTuple xs) else
  if String.eqb f "list" then xs <- all_of vals; Some (VList xs) else
  if (String.eqb f "inject" || String.eqb f "variant")%bool then match vals with [g; v] => g <- g; n <- as_int g; v <- v; Some (VVariant (as_u32 n) v) | _ => None end else
  if String.eqb f "proj" then match args, vals with [_; PInt i], [v; _] => v <- v; part v i | _, _ => None end else
  if String.eqb f "len" then match vals with [v] => v <- v; eval_unary ULen v | _ => None end else
  if String.eqb f "istag" then match args, vals with [PInt g; _], [_; v] => v <- v; eval_unary (UIsTag (as_u32 (Z.of_nat g))) v | _, _ => None end else
  if String.eqb f "not" then match vals with [v] => v <- v; Some (VInt (if truthy v then 0 else 1)) | _ => None end else
  if String.eqb f "or" then match vals with [a; b] => a <- a; if truthy a then Some (VInt 1) else b <- b; Some (truth b) | _ => None end else
  if String.eqb f "if" then match vals with [c; t; e] => c <- c; if truthy c then t else e | _ => None end else
  if String.eqb f "hash" then
    match vals with
    | b :: k :: ks => b <- b; bound <- as_int b; h <- mixes (k :: ks) 0xcbf29ce484222325; let h := Z.shiftr h 1 in Some (VInt (if (0 <? bound)%Z then h mod bound else h))%Z
    | _ => None
    end
  else None.

(** [env] is the stack of values: the rows at the bottom, then what the enclosing folds and patterns brought.
    [None] is that the term has no value. *)
Fixpoint meaning (cons : list (string * (nat * nat))) (ns : scope) (env : list Value) (s : PT) {struct s} : option Value :=
  match s with
  | PRow n => nth_error env n
  | PBound k => nth_error (rev env) k
  | PInt n => Some (VInt (Z.of_nat n))
  | PName x => ' (payload, i) <- lookup ns x; part payload i
  | PCall f args =>
      let vals := map (meaning cons ns env) args in
      match lookup cons f with
      | Some (tag, _) => xs <- all_of vals; Some (VVariant (Z.of_nat tag) (VTuple xs))
      | None => builtin f args vals
      end
  | PCase s arms =>
      v <- meaning cons ns env s;
      match v with
      | VVariant g payload =>
          (* the first arm with the constructor, or else the last default *)
          let fix pick (l : list (Pattern * PT)) (default : option Value) : option Value :=
            match l with
            | [] => default
            | (Default, x) :: l => pick l (meaning cons ns env x)
            | (Ctor c xs, x) :: l =>
                ' (tag, _) <- lookup cons c;
                if (tag =? Z.to_nat g)%nat then meaning cons (enter xs payload ns) (env ++ [payload]) x else pick l default
            end in
          pick arms None
      | _ => None
      end
  | PFold l i step =>
      v <- meaning cons ns env l;
      match v with
      | VList items => a <- meaning cons ns env i; fold_left (fun a item => a <- a; meaning cons ns (env ++ [a; item]) step) items (Some a)
      | _ => None
      end
  | PNeg t => v <- meaning cons ns env t; eval_unary UNeg v
  | PBin BAnd l r => x <- meaning cons ns env l; if truthy x then y <- meaning cons ns env r; Some (VInt (if truthy y then 1 else 0)) else Some (VInt 0)
  | PBin BOr l r => x <- meaning cons ns env l; if truthy x then Some (VInt 1) else y <- meaning cons ns env r; Some (VInt (if truthy y then 1 else 0))
  | PBin op l r => x <- meaning cons ns env l; y <- meaning cons ns env r; eval_binary op x y
  | PProj t i => v <- meaning cons ns env t; part v i
  end.

(** ** Terms whose defaults are safe *)
(** No names, no [^k], and only rows that are there. *)
Fixpoint flat_term (rows : nat) (s : PT) : Prop :=
  match s with
  | PRow n => n < rows
  | PBound _ | PName _ => False
  | PInt _ => True
  | PCall _ args => (fix all (l : list PT) := match l with [] => True | x :: l => flat_term rows x /\ all l end) args
  | PCase s arms => flat_term rows s /\ (fix all (l : list (Pattern * PT)) := match l with [] => True | (_, x) :: l => flat_term rows x /\ all l end) arms
  | PFold l i s => flat_term rows l /\ flat_term rows i /\ flat_term rows s
  | PNeg t | PProj t _ => flat_term rows t
  | PBin _ l r => flat_term rows l /\ flat_term rows r
  end.
(** Every tag below one that the arms mention is mentioned. *)
Definition gapless (cons : list (string * (nat * nat))) (arms : list (Pattern * PT)) : Prop :=
  forall c xs x tag ar t, In (Ctor c xs, x) arms -> lookup cons c = Some (tag, ar) -> t < tag ->
  exists c' xs' x' ar', In (Ctor c' xs', x') arms /\ lookup cons c' = Some (t, ar').
(** Wherever a case leaves out a tag below one that it mentions, its default is flat.  And no function is called like a keyword. *)
Fixpoint safe (cons : list (string * (nat * nat))) (rows : nat) (s : PT) : Prop :=
  match s with
  | PRow _ | PBound _ | PName _ | PInt _ => True
  | PCall f args => f <> "case"%string /\ f <> "fold"%string /\ (fix all (l : list PT) := match l with [] => True | x :: l => safe cons rows x /\ all l end) args
  | PCase s arms =>
      safe cons rows s /\ (fix all (l : list (Pattern * PT)) := match l with [] => True | (_, x) :: l => safe cons rows x /\ all l end) arms /\
      (gapless cons arms \/ forall d, In (Default, d) arms -> flat_term rows d)
  | PFold l i s => safe cons rows l /\ safe cons rows i /\ safe cons rows s
  | PNeg t | PProj t _ => safe cons rows t
  | PBin _ l r => safe cons rows l /\ safe cons rows r
  end.

(** Tags are numbers of 32 bits. *)
Definition tags_fit (cons : list (string * (nat * nat))) : Prop := forall c tag ar, lookup cons c = Some (tag, ar) -> (Z.of_nat tag < 2 ^ 32)%Z.

(** ** Terms that are accepted *)
(** The arguments a builtin function takes.  ("case" and "fold" are keywords, and not names, in a text.) *)
Definition takes (f : string) (args : list PT) : Prop :=
  if existsb (String.eqb f) ["tuple"; "list"]%string then True else
  if existsb (String.eqb f) ["inject"; "variant"; "or"]%string then length args = 2 else
  if existsb (String.eqb f) ["len"; "not"]%string then length args = 1 else
  if existsb (String.eqb f) ["if"; "fold"]%string then length args = 3 else
  if existsb (String.eqb f) ["hash"; "case"]%string then 2 <= length args else
  if String.eqb f "proj" then exists a i, args = [a; PInt i] else
  if String.eqb f "istag" then exists g a, args = [PInt g; a] else False.
(** Names are bound, constructors and functions are known and have their arguments, and cases cover the tags below
    the ones that they mention. *)
Fixpoint proper (cons : list (string * (nat * nat))) (bound : list string) (s : PT) : Prop :=
  match s with
  | PRow _ | PBound _ | PInt _ => True
  | PName x => In x bound
  | PCall f args =>
      (fix all (l : list PT) := match l with [] => True | x :: l => proper cons bound x /\ all l end) args /\
      match lookup cons f with Some (_, arity) => length args = arity | None => takes f args end
  | PCase s arms =>
      proper cons bound s /\
      (fix all (l : list (Pattern * PT)) :=
         match l with
         | [] => True
         | (Ctor c xs, x) :: l => (exists tag, lookup cons c = Some (tag, length xs)) /\ proper cons (xs ++ bound) x /\ all l
         | (Default, x) :: l => proper cons bound x /\ all l
         end) arms /\
      (gapless cons arms \/ exists d, In (Default, d) arms)
  | PFold l i s => proper cons bound l /\ proper cons bound i /\ proper cons bound s
  | PNeg t | PProj t _ => proper cons bound t
  | PBin _ l r => proper cons bound l /\ proper cons bound r
  end.
