(** Model of interactive/src/backend/mod.rs [render_tree] with the operators of backend/vec.rs.

    A program is rendered as a dataflow.  The model relates the collections on the edges of the dataflow
    once it is quiescent: each edge carries what its operator makes of the edges it reads, which is what
    the other parts of this development prove of the operators.  A collection is a list of updates, and
    which list is not determined: two lists with the same total difference for each record and time are
    the same collection.

    A scalar term that panics takes the process down.  The relation describes dataflows in which none
    does; there a record on which a term would panic contributes nothing. *)
From Verif Require Export Model.ScopeIrM Spec.Collection Spec.JoinSpec.
Local Open Scope nat_scope.

Definition coll := list iupdate.

(** ** Value as an ordered type, for the comparison of records *)
Section ValueOrd.
Lemma value_ind' (P : Value -> Prop) :
  (forall n, P (VInt n)) -> (forall xs, Forall P xs -> P (VTuple xs)) -> (forall t v, P v -> P (VVariant t v)) ->
  (forall xs, Forall P xs -> P (VList xs)) -> forall v, P v.
Proof.
  intros Hi Ht Hv Hl. fix F 1. intros [n|xs|t v|xs]; [apply Hi|apply Ht|apply Hv, F|apply Hl];
    induction xs; constructor; auto.
Qed.
Fixpoint values_cmp (xs ys : list Value) : comparison :=
  match xs, ys with
  | [], [] => Eq
  | [], _ => Lt
  | _, [] => Gt
  | x :: xs, y :: ys => match value_cmp x y with Eq => values_cmp xs ys | c => c end
  end.
Lemma value_cmp_tuple xs ys : value_cmp (VTuple xs) (VTuple ys) = values_cmp xs ys.
Proof. revert ys; induction xs as [|x xs IH]; intros [|y ys]; simpl; auto. Qed.
Lemma value_cmp_list xs ys : value_cmp (VList xs) (VList ys) = values_cmp xs ys.
Proof. revert ys; induction xs as [|x xs IH]; intros [|y ys]; simpl; auto. Qed.
Lemma values_cmp_eq xs : Forall (fun x => forall y, value_cmp x y = Eq <-> x = y) xs -> forall ys, values_cmp xs ys = Eq <-> xs = ys.
Proof.
  induction 1 as [|x xs H _ IH]; intros [|y ys]; simpl; try (split; congruence).
  specialize (H y). specialize (IH ys). destruct (value_cmp x y) eqn:E.
  - rewrite IH. split; [intros ->; f_equal; tauto|congruence].
  - split; [congruence|]. intros Q; inversion Q. tauto.
  - split; [congruence|]. intros Q; inversion Q. tauto.
Qed.
Lemma value_cmp_eq x : forall y, value_cmp x y = Eq <-> x = y.
Proof.
  induction x as [n|xs IH|t v IH|xs IH] using value_ind'; intros [m|ys|u w|ys]; try (simpl; split; congruence).
  - simpl. rewrite Z.compare_eq_iff. split; congruence.
  - rewrite value_cmp_tuple, (values_cmp_eq _ IH). split; congruence.
  - simpl. specialize (IH w). destruct (Z.compare t u) eqn:E; [apply Z.compare_eq_iff in E; subst; rewrite IH; split; congruence| |];
      (split; [congruence|]; intros Q; inversion Q; subst; rewrite Z.compare_refl in E; congruence).
  - rewrite value_cmp_list, (values_cmp_eq _ IH). split; congruence.
Qed.
Lemma values_cmp_antisym xs : Forall (fun x => forall y, value_cmp y x = CompOpp (value_cmp x y)) xs -> forall ys, values_cmp ys xs = CompOpp (values_cmp xs ys).
Proof.
  induction 1 as [|x xs H _ IH]; intros [|y ys]; simpl; auto. rewrite H. destruct (value_cmp x y); simpl; auto.
Qed.
Lemma value_cmp_antisym x : forall y, value_cmp y x = CompOpp (value_cmp x y).
Proof.
  induction x as [n|xs IH|t v IH|xs IH] using value_ind'; intros [m|ys|u w|ys]; try reflexivity.
  - apply Z.compare_antisym.
  - rewrite !value_cmp_tuple. apply values_cmp_antisym, IH.
  - simpl. rewrite (Z.compare_antisym t u). destruct (Z.compare t u); simpl; auto.
  - rewrite !value_cmp_list. apply values_cmp_antisym, IH.
Qed.
Lemma values_cmp_trans xs : Forall (fun x => forall y z, value_cmp x y = Lt -> value_cmp y z = Lt -> value_cmp x z = Lt) xs ->
  forall ys zs, values_cmp xs ys = Lt -> values_cmp ys zs = Lt -> values_cmp xs zs = Lt.
Proof.
  induction 1 as [|x xs H _ IH]; intros [|y ys] [|z zs]; simpl; auto; try discriminate.
  destruct (value_cmp x y) eqn:E1; try discriminate; intros H1; destruct (value_cmp y z) eqn:E2; try discriminate; intros H2.
  - apply value_cmp_eq in E1; subst. rewrite E2. eauto.
  - apply value_cmp_eq in E1; subst. rewrite E2. auto.
  - apply value_cmp_eq in E2; subst. rewrite E1. auto.
  - rewrite (H _ _ E1 E2). auto.
Qed.
Lemma value_cmp_trans x : forall y z, value_cmp x y = Lt -> value_cmp y z = Lt -> value_cmp x z = Lt.
Proof.
  induction x as [n|xs IH|t v IH|xs IH] using value_ind'; intros [m|ys|u w|ys] [k|zs|a b|zs]; try (simpl; congruence).
  - simpl. rewrite !Z.compare_lt_iff. lia.
  - rewrite !value_cmp_tuple. apply values_cmp_trans, IH.
  - simpl. destruct (Z.compare t u) eqn:E1; try discriminate; intros H1; destruct (Z.compare u a) eqn:E2; try discriminate; intros H2.
    + apply Z.compare_eq_iff in E1, E2; subst. rewrite Z.compare_refl. eauto.
    + apply Z.compare_eq_iff in E1; subst. rewrite E2. auto.
    + apply Z.compare_eq_iff in E2; subst. rewrite E1. auto.
    + rewrite Z.compare_lt_iff in E1, E2. rewrite (proj2 (Z.compare_lt_iff _ _)); auto; lia.
  - rewrite !value_cmp_list. apply values_cmp_trans, IH.
Qed.
End ValueOrd.
#[global] Instance Ord_value : Ord Value := {| cmp := value_cmp; cmp_eq := value_cmp_eq; cmp_antisym := value_cmp_antisym; cmp_trans := value_cmp_trans |}.

Definition same_coll (c1 c2 : coll) : Prop := same_weights (A:=row*itime) c1 c2.

(** ** What the operators make of collections *)
(* vec.rs:44-110; where a term panics the record is dropped *)
Definition quietly {A} (o : option (list A)) : list A := match o with Some l => l | None => [] end.
Fixpoint quiet_ops (level iter : nat) (ops : list LinearOp) (rs : list (row * itime * Z)) : list (row * itime * Z) :=
  match ops with
  | [] => rs
  | op :: ops => quiet_ops level iter ops (flat_map (fun x => quietly (op_results level iter op x)) rs)
  end.
Definition linear_of (ops : list LinearOp) (level : nat) (c : coll) : coll :=
  flat_map (fun u => map (fun x => (fst (fst x), join (snd (fst u)) (snd (fst x)), (snd u * snd x)%Z))
                       (quiet_ops level (iter_at_level level (snd (fst u))) ops [(fst (fst u), tmin, 1%Z)])) c.

(* vec.rs:129-139 with join_core: every pair of updates with the same key *)
Definition joined_of (p : Projection) (l r : coll) : coll :=
  join_updates (K:=Value) (V1:=Value) (V2:=Value) (D:=row) (T:=itime) (fun k v1 v2 => quietly (join_row p k v1 v2)) l r.

(* vec.rs:140-163 with reduce_abelian: at each time, each key's accumulated values, if there are any, give
   the accumulated output *)
Definition reduced_to (red : Reducer) (c out : coll) : Prop :=
  forall k t, exists vals, consolidated vals /\ (forall v, weight vals v = acc (D:=row) (T:=itime) c (k, v) t) /\
    forall v, acc (D:=row) (T:=itime) out (k, v) t = match vals with [] => 0%Z | _ => weight (reduce_row red vals) v end.

(* backend/mod.rs:117 with Variable::set (operators/iterate.rs): the time of the next round.  The summary is
   [feedback_summary(depth, 1)]; there is none at the root. *)
Definition feedback_time (depth : nat) (t : itime) : option itime :=
  s <- feedback_summary 0 depth 1;
  v <- pss_results_in (fun a b => Some (a + b)) s (ps_vec (snd t));
  Some (fst t, mk_ps v).
Definition at_times (f : itime -> option itime) (c : coll) : option coll :=
  mapO (fun u => t <- f (snd (fst u)); Some (fst (fst u), t, snd u)) c.
(* backend/mod.rs:166 with dynamic/mod.rs:39-63 *)
Definition left_time (level : nat) (t : itime) : option itime :=
  match level with 0 => None | S l => Some (fst t, mk_ps (firstn l (ps_vec (snd t)))) end.

(** ** The dataflow *)
(* backend/mod.rs:79-82: what is known of an item.  Whether an operator's value is an arrangement does not
   change the collection. *)
Inductive rvalue := VOp (c : coll) | VSub (exports : list coll).

(* backend/mod.rs:84-104 resolve *)
Definition resolve (items : list rvalue) (imports vars : list coll) (r : Ref) : option coll :=
  match r with
  | RLocal i => match nth_error items i with Some (VOp c) => Some c | _ => None end
  | RImport i => nth_error imports i
  | RVar i => nth_error vars i
  | RChildExport i j => match nth_error items i with Some (VSub es) => nth_error es j | _ => None end
  end.

(* backend/mod.rs:127-154: the collection of an operator *)
Definition node_means (depth : nat) (look : Ref -> option coll) (n : Node) (out : coll) : Prop :=
  match n with
  | NLinear r ops => exists c, look r = Some c /\ same_coll out (linear_of ops depth c)
  | NConcat rs => exists cs, mapO look rs = Some cs /\ cs <> [] /\ same_coll out (concat cs)
  | NArrange r => exists c, look r = Some c /\ same_coll out c
  | NJoin l r p => exists c1 c2, look l = Some c1 /\ look r = Some c2 /\ same_coll out (joined_of p c1 c2)
  | NReduce r red => exists c, look r = Some c /\ reduced_to red c out
  | NInspect r _ => exists c, look r = Some c /\ same_coll out c
  end.

(* backend/mod.rs:157-160 *)
Definition imported (look : Ref -> option coll) (is : list Import) : option (list coll) :=
  mapO (fun im => match im_from im with SParent r => look r | _ => None end) is.

(* backend/mod.rs:109-179 render_tree: [imports] and the variables and items so far are what a reference can
   name.  A variable is what its bind gives, one round later, or empty if it has no bind; two binds panic. *)
Fixpoint scope_means (depth : nat) (s : Scope) (imports exports : list coll) {struct s} : Prop :=
  match s with
  | MkScope _ _ vs its bs es =>
      exists (vars : list coll) (vals : list rvalue),
        let look := resolve vals imports vars in
        length vars = length vs /\
        (fix all (its : list Item) (n : nat) : Prop :=
           match its with
           | [] => length vals = n
           | it :: its =>
               let before := resolve (firstn n vals) imports vars in
               match it with
               | IOp node => exists c, nth_error vals n = Some (VOp c) /\ node_means depth before node c
               | ISub child =>
                   exists ims exs outs, nth_error vals n = Some (VSub outs) /\
                     imported before (sc_imports child) = Some ims /\ scope_means (S depth) child ims exs /\
                     Forall2 (fun e o => exists l, at_times (left_time (S depth)) e = Some l /\ same_coll o l) exs outs
               end /\ all its (S n)
           end) its 0 /\
        (Forall (fun b => bi_var b < length vs) bs /\ NoDup (map bi_var bs)) /\
        (forall v c, nth_error vars v = Some c ->
           match find (fun b => bi_var b =? v) bs with
           | Some b => exists src l, look (bi_value b) = Some src /\ at_times (feedback_time depth) src = Some l /\ same_coll c l
           | None => same_coll c []
           end) /\
        (vs <> [] -> depth <> 0) /\
        exists outs, mapO (fun e => look (ex_value e)) es = Some outs /\ Forall2 same_coll outs exports
  end.

(* vec.rs:190-199 and server.rs: the root's imports are the program's inputs and the traces it names *)
Definition root_imports (s : Scope) (inputs : nat -> option coll) (traces : string -> option coll) : option (list coll) :=
  mapO (fun im => match im_from im with SInput n => inputs n | STrace name => traces name | SParent _ => None end) (sc_imports s).
Definition program_means (s : Scope) (inputs : nat -> option coll) (traces : string -> option coll) (exports : list coll) : Prop :=
  exists ims, root_imports s inputs traces = Some ims /\ scope_means 0 s ims exports.
