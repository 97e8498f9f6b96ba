(** Slices as lists with checked indexing ([None] is Rust's panic), and the option monad. *)
From Verif Require Export Base.Order.

Notation "x <- e ; f" := (match e with Some x => f | None => None end)
  (at level 100, e at next level, f at level 200, right associativity, only parsing).
Notation "' p <- e ; f" := (match e with Some p => f | None => None end)
  (at level 100, p strict pattern, e at next level, f at level 200, right associativity, only parsing).

Section Arrays.
Context {A : Type}.
Implicit Types (l : list A) (i j : nat) (v : A).

Fixpoint upd l i v : list A :=
  match l, i with
  | [], _ => []
  | _ :: l', 0 => v :: l'
  | x :: l', S i' => x :: upd l' i' v
  end.

(** [slice[i]], [slice[i] = v] and [slice.swap(i,j)], each panicking out of bounds. *)
Definition get l i : option A := nth_error l i.
Definition put l i v : option (list A) := if i <? length l then Some (upd l i v) else None.
Definition swap l i j : option (list A) := x <- get l i; y <- get l j; Some (upd (upd l i y) j x).

Lemma length_upd l i v : length (upd l i v) = length l.
Proof. revert i; induction l as [|x l IH]; intros [|i]; simpl; auto. Qed.

Lemma get_upd_eq l i v : i < length l -> get (upd l i v) i = Some v.
Proof. unfold get; revert i; induction l as [|x l IH]; intros [|i]; simpl; intros H; try lia; auto. apply IH; lia. Qed.

Lemma get_upd_ne l i j v : i <> j -> get (upd l i v) j = get l j.
Proof. unfold get; revert i j; induction l as [|x l IH]; intros [|i] [|j]; simpl; intros H; try lia; auto. Qed.

Lemma firstn_upd_ge l i v k : k <= i -> firstn k (upd l i v) = firstn k l.
Proof.
  revert i k; induction l as [|x l IH]; intros [|i] [|k]; simpl; intros H; try lia; auto. f_equal; apply IH; lia.
Qed.

Lemma skipn_upd_lt l i v k : i < k -> skipn k (upd l i v) = skipn k l.
Proof.
  revert i k; induction l as [|x l IH]; intros [|i] [|k]; simpl; intros H; try lia; auto. apply IH; lia.
Qed.

Lemma firstn_S_get l k v : get l k = Some v -> firstn (S k) l = firstn k l ++ [v].
Proof.
  unfold get; revert k; induction l as [|x l IH]; intros [|k] H; simpl in *; try discriminate.
  - inversion H; auto.
  - f_equal; apply IH; auto.
Qed.

Lemma skipn_get l k v : get l k = Some v -> skipn k l = v :: skipn (S k) l.
Proof.
  unfold get; revert k; induction l as [|x l IH]; intros [|k] H; simpl in *; try discriminate.
  - inversion H; auto.
  - apply IH; auto.
Qed.

Lemma get_skipn l k v r : skipn k l = v :: r -> get l k = Some v /\ skipn (S k) l = r.
Proof.
  unfold get; revert k; induction l as [|x l IH]; intros [|k] H; simpl in *; try discriminate.
  - inversion H; auto.
  - apply IH; auto.
Qed.

Lemma get_some l i : i < length l -> exists v, get l i = Some v.
Proof.
  intros H. destruct (get l i) as [v|] eqn:E; eauto. apply nth_error_None in E; lia.
Qed.

Lemma get_lt l i v : get l i = Some v -> i < length l.
Proof. intros H; apply nth_error_Some; unfold get in H; congruence. Qed.

Lemma get_app_l l1 l2 i : i < length l1 -> get (l1 ++ l2) i = get l1 i.
Proof. intros; apply nth_error_app1; auto. Qed.
Lemma get_app_r l1 l2 i : length l1 <= i -> get (l1 ++ l2) i = get l2 (i - length l1).
Proof. intros; apply nth_error_app2; auto. Qed.

Lemma swap_some l i j x y : get l i = Some x -> get l j = Some y -> swap l i j = Some (upd (upd l i y) j x).
Proof. intros H1 H2; unfold swap; rewrite H1, H2; reflexivity. Qed.

Lemma put_some l i v : i < length l -> put l i v = Some (upd l i v).
Proof. intros H; unfold put. apply Nat.ltb_lt in H; rewrite H; auto. Qed.
End Arrays.

Arguments get : simpl never.
Arguments put : simpl never.
Arguments swap : simpl never.
