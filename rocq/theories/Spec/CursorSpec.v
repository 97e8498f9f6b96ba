(** * What a cursor presents: a trie of keys, values and (time, diff) updates, and a position in it *)
From Verif Require Export Spec.Collection.

Section CursorSpec.
Context {K V T R : Type} {OK : Ord K} {OV : Ord V}.

(** Keys in order; under each key its values in order; under each value its updates. *)
Definition trie := list (K * list (V * list (T * R))).

(** The updates of a trie, in order. *)
Definition flat (tr : trie) : list (K * V * T * R) :=
  flat_map (fun kv => flat_map (fun vu => map (fun tr => (fst kv, fst vu, fst tr, snd tr)) (snd vu)) (snd kv)) tr.

(** The updates listed by [Cursor::to_vec], in order. *)
Definition flat_vec (l : list ((K * V) * list (T * R))) : list (K * V * T * R) :=
  flat_map (fun x => map (fun u => (fst x, fst u, snd u)) (snd x)) l.

(** Grouping a list of updates by adjacent equal keys and values. *)
Definition add_update (u : K * V * T * R) (tr : trie) : trie :=
  let '(k, v, t, r) := u in
  match tr with
  | (k', (v', l) :: vs) :: tr' =>
      if eqb k k' then
        if eqb v v' then (k, (v, (t, r) :: l) :: vs) :: tr'
        else (k, (v, [(t, r)]) :: (v', l) :: vs) :: tr'
      else (k, [(v, [(t, r)])]) :: tr
  | _ => (k, [(v, [(t, r)])]) :: tr
  end.
Definition trie_of (us : list (K * V * T * R)) : trie := fold_right add_update [] us.

(** A position: a key index and a value index (each possibly one past the end). *)
Record pos := { kp : nat; vp : nat }.
Definition start : pos := {| kp := 0; vp := 0 |}.

Definition cur_vals (tr : trie) (p : pos) : list (V * list (T * R)) :=
  match nth_error tr (kp p) with Some (_, vs) => vs | None => [] end.
Definition at_key (tr : trie) (p : pos) : option K := option_map fst (nth_error tr (kp p)).
Definition at_val (tr : trie) (p : pos) : option V := option_map fst (nth_error (cur_vals tr p) (vp p)).
Definition at_times (tr : trie) (p : pos) : list (T * R) :=
  match nth_error (cur_vals tr p) (vp p) with Some (_, l) => l | None => [] end.

(** What can be seen at a position: nothing past the last key; the key, and nothing else past the last
    value; else the key, the value, and all its updates. *)
Definition observation (tr : trie) (p : pos) : option (K * option (V * list (T * R))) :=
  match at_key tr p with
  | None => None
  | Some k => Some (k, match at_val tr p with None => None | Some v => Some (v, at_times tr p) end)
  end.

(** Navigation. *)
Inductive nav := StepKey | SeekKey (k : K) | StepVal | SeekVal (v : V) | RewindKeys | RewindVals.

(** The number of leading elements satisfying [f]. *)
Fixpoint prefix_len {A} (f : A -> bool) (l : list A) : nat :=
  match l with [] => 0 | x :: l => if f x then S (prefix_len f l) else 0 end.

Definition move (tr : trie) (p : pos) (op : nav) : pos :=
  match op with
  | StepKey => {| kp := Nat.min (S (kp p)) (length tr); vp := 0 |}
  | SeekKey k => {| kp := kp p + prefix_len (fun e => ltb (fst e) k) (skipn (kp p) tr); vp := 0 |}
  | StepVal => {| kp := kp p; vp := Nat.min (S (vp p)) (length (cur_vals tr p)) |}
  | SeekVal v => {| kp := kp p; vp := vp p + prefix_len (fun e => ltb (fst e) v) (skipn (vp p) (cur_vals tr p)) |}
  | RewindKeys => start
  | RewindVals => {| kp := kp p; vp := 0 |}
  end.

(** Values may only be navigated while at a key. *)
Definition legal (tr : trie) (p : pos) (op : nav) : Prop :=
  match op with StepVal | SeekVal _ | RewindVals => at_key tr p <> None | _ => True end.

Inductive legal_run (tr : trie) : pos -> list nav -> pos -> Prop :=
| lr_nil : forall p, legal_run tr p [] p
| lr_cons : forall p op ops p', legal tr p op -> legal_run tr (move tr p op) ops p' -> legal_run tr p (op :: ops) p'.

(** The union of several tries: all keys, under each key all values, under each value all updates. *)
Fixpoint insert_set {A} {OA : Ord A} (a : A) (l : list A) : list A :=
  match l with
  | [] => [a]
  | b :: l' => match cmp a b with Lt => a :: l | Eq => l | Gt => b :: insert_set a l' end
  end.
Definition sort_set {A} {OA : Ord A} (l : list A) : list A := fold_right insert_set [] l.

Definition vals_under (tr : trie) (k : K) : list (V * list (T * R)) :=
  flat_map (fun e => if eqb (fst e) k then snd e else []) tr.
Definition times_under (tr : trie) (k : K) (v : V) : list (T * R) :=
  flat_map (fun e => if eqb (fst e) v then snd e else []) (vals_under tr k).

Definition union_trie (trs : list trie) : trie :=
  map (fun k =>
         (k, map (fun v => (v, flat_map (fun tr => times_under tr k v) trs))
               (sort_set (flat_map (fun tr => map fst (vals_under tr k)) trs))))
    (sort_set (flat_map (map fst) trs)).
End CursorSpec.
Arguments trie : clear implicits.
Arguments nav : clear implicits.
