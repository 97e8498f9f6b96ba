(** A cursor over a storage presents a trie: after every legal navigation it does not panic, and its
    accessors show exactly what is in the trie at the corresponding position. *)
From Verif Require Export Spec.CursorSpec Model.CursorM.

Definition presents {St C K V T R} {OK : Ord K} {OV : Ord V} (ops : CursorOps St C K V T R)
    (st : St) (c0 : C) (tr : trie K V T R) : Prop :=
  forall navs p, legal_run tr start navs p ->
    exists c, c_run ops st c0 navs = Some c /\ c_observe ops st c = Some (observation tr p).

(** The same for navigations restricted by a further condition [ok] on each step. *)
Inductive run_if {K V T R} {OK : Ord K} {OV : Ord V} (ok : pos -> nav K V -> Prop) (tr : trie K V T R) : pos -> list (nav K V) -> pos -> Prop :=
| ri_nil : forall p, run_if ok tr p [] p
| ri_cons : forall p op ops p', legal tr p op -> ok p op -> run_if ok tr (move tr p op) ops p' -> run_if ok tr p (op :: ops) p'.
Definition presents_if {St C K V T R} {OK : Ord K} {OV : Ord V} (ok : pos -> nav K V -> Prop) (ops : CursorOps St C K V T R)
    (st : St) (c0 : C) (tr : trie K V T R) : Prop :=
  forall navs p, run_if ok tr start navs p ->
    exists c, c_run ops st c0 navs = Some c /\ c_observe ops st c = Some (observation tr p).

(** The restriction that a merged cursor needs: values are only sought while every source has the
    current key. *)
Definition shared_seeks {K V T R} {OK : Ord K} {OV : Ord V} (trs : list (trie K V T R)) (p : pos) (op : nav K V) : Prop :=
  match op with
  | SeekVal _ => forall tr, In tr trs -> exists k, at_key (union_trie trs) p = Some k /\ In k (map fst tr)
  | _ => True
  end.
