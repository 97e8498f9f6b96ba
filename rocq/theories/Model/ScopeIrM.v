(** Model of interactive/src/scope_ir.rs: the tree of scopes, and [optimize].  [None] is a panic. *)
From Verif Require Export Model.DdirM.

(* scope_ir.rs:50-60 *)
Inductive Ref :=
| RLocal (i : nat)
| RImport (i : nat)
| RVar (i : nat)
| RChildExport (i j : nat).
(* 62-72 *)
Inductive Source :=
| SParent (r : Ref)
| SInput (n : nat)
| STrace (name : string).
(* 74-79 *)
Record Import := { im_name : string; im_from : Source }.
(* 81-86 *)
Record Export := { ex_name : string; ex_value : Ref }.
(* 99-104 *)
Record Bind := { bi_var : nat; bi_value : Ref }.
(* 106-116 *)
Inductive Node :=
| NLinear (input : Ref) (ops : list LinearOp)
| NConcat (refs : list Ref)
| NArrange (input : Ref)
| NJoin (left right : Ref) (p : Projection)
| NReduce (input : Ref) (r : Reducer)
| NInspect (input : Ref) (label : string).
(* 118-140; of a [Var], 92-97, there is the name *)
Inductive Item :=
| IOp (n : Node)
| ISub (s : Scope)
with Scope := MkScope (name : string) (imports : list Import) (vars : list string) (items : list Item) (binds : list Bind) (exports : list Export).

Definition sc_name (s : Scope) := let (x, _, _, _, _, _) := s in x.
Definition sc_imports (s : Scope) := let (_, x, _, _, _, _) := s in x.
Definition sc_vars (s : Scope) := let (_, _, x, _, _, _) := s in x.
Definition sc_items (s : Scope) := let (_, _, _, x, _, _) := s in x.
Definition sc_binds (s : Scope) := let (_, _, _, _, x, _) := s in x.
Definition sc_exports (s : Scope) := let (_, _, _, _, _, x) := s in x.
Definition with_items (s : Scope) (items : list Item) : Scope :=
  MkScope (sc_name s) (sc_imports s) (sc_vars s) items (sc_binds s) (sc_exports s).

(* 160-166 op_count *)
Fixpoint op_count (s : Scope) : nat :=
  let fix go (items : list Item) : nat :=
    match items with [] => 0 | IOp _ :: items => 1 + go items | ISub c :: items => op_count c + go items end in
  go (sc_items s).

(** ** All references of a scope *)
(* 206-211, 237-242 *)
Definition node_refs (n : Node) : list Ref :=
  match n with
  | NLinear r _ | NArrange r | NReduce r _ | NInspect r _ => [r]
  | NJoin l r _ => [l; r]
  | NConcat rs => rs
  end.
(* 212-214, 243-245 *)
Definition import_refs (is : list Import) : list Ref :=
  flat_map (fun im => match im_from im with SParent r => [r] | _ => [] end) is.
Definition item_refs (it : Item) : list Ref :=
  match it with IOp n => node_refs n | ISub c => import_refs (sc_imports c) end.

(* 202-219 for_each_ref: the closure changes each reference, or panics *)
Definition node_each (f : Ref -> option Ref) (n : Node) : option Node :=
  match n with
  | NLinear r ops => r <- f r; Some (NLinear r ops)
  | NArrange r => r <- f r; Some (NArrange r)
  | NReduce r red => r <- f r; Some (NReduce r red)
  | NInspect r l => r <- f r; Some (NInspect r l)
  | NJoin l r p => l <- f l; r <- f r; Some (NJoin l r p)
  | NConcat rs => rs <- mapO f rs; Some (NConcat rs)
  end.
Definition import_each (f : Ref -> option Ref) (im : Import) : option Import :=
  match im_from im with
  | SParent r => r <- f r; Some {| im_name := im_name im; im_from := SParent r |}
  | _ => Some im
  end.
Definition item_each (f : Ref -> option Ref) (it : Item) : option Item :=
  match it with
  | IOp n => n <- node_each f n; Some (IOp n)
  | ISub (MkScope nm ims vs its bs es) => ims <- mapO (import_each f) ims; Some (ISub (MkScope nm ims vs its bs es))
  end.
Definition for_each_ref (f : Ref -> option Ref) (s : Scope) : option Scope :=
  items <- mapO (item_each f) (sc_items s);
  binds <- mapO (fun b => v <- f (bi_value b); Some {| bi_var := bi_var b; bi_value := v |}) (sc_binds s);
  exports <- mapO (fun e => v <- f (ex_value e); Some {| ex_name := ex_name e; ex_value := v |}) (sc_exports s);
  Some (MkScope (sc_name s) (sc_imports s) (sc_vars s) items binds exports).

(* 228-253 use_counts: references held by items that are not dead, and by binds and exports *)
Fixpoint live_refs (items : list Item) (dead : list bool) : option (list Ref) :=
  match items with
  | [] => Some []
  | it :: items =>
      match dead with
      | [] => None
      | d :: dead => rest <- live_refs items dead; Some (if d then rest else item_refs it ++ rest)
      end
  end.
Definition target (r : Ref) : option nat := match r with RLocal i | RChildExport i _ => Some i | _ => None end.
Definition use_counts (s : Scope) (dead : list bool) : option (list nat) :=
  live <- live_refs (sc_items s) dead;
  let tally := fun (counts : option (list nat)) r =>
    counts <- counts;
    match target r with Some i => c <- nth_error counts i; put counts i (S c) | None => Some counts end in
  fold_left tally (live ++ map bi_value (sc_binds s) ++ map ex_value (sc_exports s)) (Some (repeat 0 (length (sc_items s)))).

(* 256-259 redirect *)
Definition redirect_ref (from to : nat) (r : Ref) : Ref :=
  match r with RLocal i => if i =? from then RLocal to else RLocal i | _ => r end.
Definition redirect (from to : nat) (s : Scope) (dead : list bool) : option (Scope * list bool) :=
  s <- for_each_ref (fun r => Some (redirect_ref from to r)) s;
  dead <- put dead from true;
  Some (s, dead).

(* the state of a pass over the items: the scope, the dead ones, and whether anything changed *)
Definition pass := (Scope * list bool * bool)%type.
(* [for i in 0..self.items.len()]: no pass changes the number of items *)
Fixpoint for_items (step : nat -> pass -> option pass) (is : list nat) (p : pass) : option pass :=
  match is with [] => Some p | i :: is => p <- step i p; for_items step is p end.

(* 265-271 *)
Definition arranged (it : option Item) : bool :=
  match it with Some (IOp (NArrange _)) | Some (IOp (NReduce _ _)) => true | _ => false end.
Definition collapse_step (i : nat) (p : pass) : option pass :=
  let '(s, dead, changed) := p in
  d <- nth_error dead i;
  if (d : bool) then Some p else
  match nth_error (sc_items s) i with
  | Some (IOp (NArrange (RLocal j))) =>
      dj <- nth_error dead j;
      if negb dj && arranged (nth_error (sc_items s) j)
      then ' (s, dead) <- redirect i j s dead; Some (s, dead, true)
      else Some p
  | _ => Some p
  end.
(* 262-274 collapse_arranges *)
Definition collapse_arranges (s : Scope) (dead : list bool) : option pass :=
  for_items collapse_step (seq 0 (length (sc_items s))) (s, dead, false).

(* 280-292 *)
Definition fuse_step (counts : list nat) (i : nat) (p : pass) : option pass :=
  let '(s, dead, changed) := p in
  d <- nth_error dead i;
  if (d : bool) then Some p else
  match nth_error (sc_items s) i with
  | Some (IOp (NLinear (RLocal j) ops)) =>
      dj <- nth_error dead j;
      if (dj : bool) then Some p else
      c <- nth_error counts j;
      if negb (c =? 1) then Some p else
      match nth_error (sc_items s) j with
      | Some (IOp (NLinear inner_input inner_ops)) =>
          items <- put (sc_items s) i (IOp (NLinear inner_input (inner_ops ++ ops)));
          dead <- put dead j true;
          Some (with_items s items, dead, true)
      | _ => Some p
      end
  | _ => Some p
  end.
(* 277-294 fuse_linear *)
Definition fuse_linear (s : Scope) (dead : list bool) : option pass :=
  counts <- use_counts s dead;
  for_items (fuse_step counts) (seq 0 (length (sc_items s))) (s, dead, false).

(* 306: [format!("{:?}", node)] of two nodes are equal when the nodes are: the derived [Debug] shows all *)
Fixpoint term_eqb (a b : Term) : bool :=
  let fix go (xs ys : list Term) : bool :=
    match xs, ys with [], [] => true | x :: xs, y :: ys => term_eqb x y && go xs ys | _, _ => false end in
  match a, b with
  | TVar i, TVar j | TBound i, TBound j => i =? j
  | TInt n, TInt m => Z.eqb n m
  | TTuple xs, TTuple ys | TList xs, TList ys | THash xs, THash ys => go xs ys
  | TSpread x, TSpread y => term_eqb x y
  | TProj x i, TProj y j => term_eqb x y && (i =? j)
  | TInject t x, TInject u y => term_eqb t u && term_eqb x y
  | TCase s xs d, TCase s' ys d' =>
      term_eqb s s' && go xs ys && match d, d' with Some d, Some d' => term_eqb d d' | None, None => true | _, _ => false end
  | TFold l i s, TFold l' i' s' => term_eqb l l' && term_eqb i i' && term_eqb s s'
  | TIf c t e, TIf c' t' e' => term_eqb c c' && term_eqb t t' && term_eqb e e'
  | TUnary o x, TUnary o' y =>
      term_eqb x y && match o, o' with UNeg, UNeg | UNot, UNot | ULen, ULen => true | UIsTag t, UIsTag u => Z.eqb t u | _, _ => false end
  | TBinary o l r, TBinary o' l' r' =>
      term_eqb l l' && term_eqb r r' &&
      match o, o' with
      | BAdd, BAdd | BSub, BSub | BMul, BMul | BEq, BEq | BNe, BNe | BLt, BLt | BLe, BLe | BGt, BGt | BGe, BGe | BAnd, BAnd | BOr, BOr => true
      | _, _ => false
      end
  | _, _ => false
  end.
Definition projection_eqb (p q : Projection) : bool := term_eqb (p_key p) (p_key q) && term_eqb (p_val p) (p_val q).
Definition linear_eqb (a b : LinearOp) : bool :=
  match a, b with
  | LProject p, LProject q => projection_eqb p q
  | LFilter x, LFilter y | LEnterAt x, LEnterAt y | LFlatMap x, LFlatMap y => term_eqb x y
  | LNegate, LNegate | LLiftIter, LLiftIter => true
  | _, _ => false
  end.
Definition ref_eqb (a b : Ref) : bool :=
  match a, b with
  | RLocal i, RLocal j | RImport i, RImport j | RVar i, RVar j => i =? j
  | RChildExport i k, RChildExport j l => (i =? j) && (k =? l)
  | _, _ => false
  end.
Definition reducer_eqb (a b : Reducer) : bool :=
  match a, b with RMin, RMin | RDistinct, RDistinct | RCount, RCount | RCollect, RCollect => true | _, _ => false end.
Fixpoint list_eqb {A} (f : A -> A -> bool) (xs ys : list A) : bool :=
  match xs, ys with [], [] => true | x :: xs, y :: ys => f x y && list_eqb f xs ys | _, _ => false end.
Definition node_eqb (a b : Node) : bool :=
  match a, b with
  | NLinear r ops, NLinear r' ops' => ref_eqb r r' && list_eqb linear_eqb ops ops'
  | NConcat rs, NConcat rs' => list_eqb ref_eqb rs rs'
  | NArrange r, NArrange r' => ref_eqb r r'
  | NJoin l r p, NJoin l' r' p' => ref_eqb l l' && ref_eqb r r' && projection_eqb p p'
  | NReduce r red, NReduce r' red' => ref_eqb r r' && reducer_eqb red red'
  | NInspect r l, NInspect r' l' => ref_eqb r r' && String.eqb l l'
  | _, _ => false
  end.

(* 300-312: the map [seen] is a list of nodes and where they were first seen *)
Fixpoint find_seen (n : Node) (seen : list (Node * nat)) : option nat :=
  match seen with [] => None | (m, i) :: seen => if node_eqb n m then Some i else find_seen n seen end.
Fixpoint dedup_scan (items : list Item) (dead : list bool) (i : nat) (seen : list (Node * nat)) : option (list (nat * nat)) :=
  match items with
  | [] => Some []
  | it :: items =>
      match dead with
      | [] => None
      | d :: dead =>
          match d, it with
          | false, IOp n =>
              match find_seen n seen with
              | Some first => rest <- dedup_scan items dead (S i) seen; Some ((i, first) :: rest)
              | None => dedup_scan items dead (S i) ((n, i) :: seen)
              end
          | _, _ => dedup_scan items dead (S i) seen
          end
      end
  end.
Fixpoint redirect_all (rs : list (nat * nat)) (s : Scope) (dead : list bool) : option (Scope * list bool) :=
  match rs with
  | [] => Some (s, dead)
  | (i, first) :: rs => ' (s, dead) <- redirect i first s dead; redirect_all rs s dead
  end.
(* 298-318 dedup *)
Definition dedup (s : Scope) (dead : list bool) : option pass :=
  redirects <- dedup_scan (sc_items s) dead 0 [];
  let changed := match redirects with [] => false | _ => true end in
  ' (s, dead) <- redirect_all redirects s dead;
  Some (s, dead, changed).

(* 323-339 compact *)
Fixpoint remap_of (dead : list bool) (next : nat) : list (option nat) :=
  match dead with
  | [] => []
  | d :: dead => if (d : bool) then None :: remap_of dead next else Some next :: remap_of dead (S next)
  end.
Fixpoint retain_live {A} (xs : list A) (dead : list bool) : option (list A) :=
  match xs with
  | [] => Some []
  | x :: xs =>
      match dead with
      | [] => None
      | d :: dead => rest <- retain_live xs dead; Some (if (d : bool) then rest else x :: rest)
      end
  end.
Definition remap_ref (remap : list (option nat)) (r : Ref) : option Ref :=
  match r with
  | RLocal i => m <- nth_error remap i; i <- m; Some (RLocal i)
  | RChildExport i j => m <- nth_error remap i; i <- m; Some (RChildExport i j)
  | r => Some r
  end.
Definition compact (s : Scope) (dead : list bool) : option Scope :=
  items <- retain_live (sc_items s) dead;
  for_each_ref (remap_ref (remap_of dead 0)) (with_items s items).

(* 190-195: the loop, until nothing changes *)
Fixpoint optimize_loop (fuel : nat) (s : Scope) (dead : list bool) : option (Scope * list bool) :=
  match fuel with
  | 0 => None
  | S fuel =>
      ' (s, dead, c1) <- collapse_arranges s dead;
      ' (s, dead, c2) <- fuse_linear s dead;
      ' (s, dead, c3) <- dedup s dead;
      if c1 || c2 || c3 then optimize_loop fuel s dead else Some (s, dead)
  end.
(* 189-196; [fuel] bounds the rounds, each of which but the last marks an item *)
Definition optimize_here (s : Scope) : option Scope :=
  ' (s, dead) <- optimize_loop (S (length (sc_items s))) s (repeat false (length (sc_items s)));
  compact s dead.
(* 185-196 optimize: the children first *)
Fixpoint optimize (s : Scope) : option Scope :=
  match s with
  | MkScope nm ims vs its bs es =>
      let fix go (its : list Item) : option (list Item) :=
        match its with
        | [] => Some []
        | IOp n :: its => r <- go its; Some (IOp n :: r)
        | ISub c :: its => c <- optimize c; r <- go its; Some (ISub c :: r)
        end in
      its <- go its;
      optimize_here (MkScope nm ims vs its bs es)
  end.
