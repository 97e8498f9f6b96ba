From Coq Require Import String.
From Verif Require Export Proofs.ServerDataP Base.Collections.
From Coq Require Import Lia Permutation.

Notation weigh := (weight (A:=row) (R:=Z)).
Lemma bump_weight r d m x : weigh (bump r d m) x = (weigh m x + (if eqb (A:=row) r x then d else 0))%Z.
Proof.
  induction m as [|[r' d'] m IH]; cbn [bump].
  - etransitivity; [apply weight_one|]. rewrite weight_nil. simpl. destruct (eqb _ _); auto.
  - destruct (eqb_spec (A:=row) r' r) as [->|N].
    + etransitivity; [apply weight_cons'|]. rewrite (weight_cons' (A:=row) (r, d') m x). cbn [fst snd]. destruct (eqb (A:=row) r x); cbn [dplus dzero Diff_Z]; lia.
    + etransitivity; [apply weight_cons'|]. rewrite (weight_cons' (A:=row) (r', d') m x), IH. cbn [fst snd]. destruct (eqb (A:=row) r' x); cbn [dplus dzero Diff_Z]; lia.
Qed.
Lemma bump_keys r d m x : In x (map fst (bump r d m)) <-> x = r \/ In x (map fst m).
Proof.
  induction m as [|[r' d'] m IH]; cbn [bump]; [simpl; intuition|]. destruct (eqb_spec (A:=row) r' r) as [->|N]; simpl; [intuition|rewrite IH; intuition].
Qed.
Lemma bump_unique r d m : NoDup (map fst m) -> NoDup (map fst (bump r d m)).
Proof.
  induction m as [|[r' d'] m IH]; cbn [bump]; intros U; [repeat constructor; auto|]. inversion U as [|? ? N1 N2]; subst.
  destruct (eqb_spec (A:=row) r' r) as [->|N]; [auto|]. simpl. constructor; auto. rewrite bump_keys. simpl in N1. intuition.
Qed.
Lemma bump_all e us : forall m, NoDup (map fst m) ->
  NoDup (map fst (fold_left (fun m u => if (snd (fst u) <? e)%nat then bump (fst (fst u)) (snd u) m else m) us m)) /\
  forall x, weigh (fold_left (fun m u => if (snd (fst u) <? e)%nat then bump (fst (fst u)) (snd u) m else m) us m) x = (weigh m x + total_before e us x)%Z.
Proof.
  induction us as [|u us IH]; intros m U; cbn [fold_left].
  - split; auto. intros x. unfold total_before. simpl. lia.
  - destruct (snd (fst u) <? e) eqn:L.
    + destruct (IH (bump (fst (fst u)) (snd u) m) (bump_unique _ _ _ U)) as [A B]. split; auto. intros x. rewrite B, bump_weight, total_cons, L, andb_true_r. destruct (eqb (A:=row) (fst (fst u)) x); lia.
    + destruct (IH m U) as [A B]. split; auto. intros x. rewrite B, total_cons, L, andb_false_r. lia.
Qed.
Lemma place_perm x l : Permutation (place_row x l) (x :: l).
Proof. induction l as [|y l IH]; cbn [place_row]; auto. destruct (cmp (fst x) (fst y)); auto. eapply perm_trans; [apply perm_skip, IH|apply perm_swap]. Qed.
Lemma sort_perm l : Permutation (fold_right place_row [] l) l.
Proof. induction l as [|x l IH]; simpl; auto. etransitivity; [apply place_perm|]. constructor. auto. Qed.
Lemma place_sorted x l : ~ In (fst x) (map fst l) -> strictly_sorted (A:=row) (map fst l) -> strictly_sorted (A:=row) (map fst (place_row x l)).
Proof.
  induction l as [|y l IH]; intros N S; [constructor|]. cbn [place_row].
  destruct (cmp_spec (A:=row) (fst x) (fst y)) as [E|L|G].
  - destruct N. left. auto.
  - constructor; auto.
  - assert (N' : ~ In (fst x) (map fst l)) by (intros I; apply N; right; auto).
    assert (S' : strictly_sorted (A:=row) (map fst l)) by (inversion S; subst; auto; constructor).
    specialize (IH N' S'). destruct l as [|z l]; [constructor; auto|]. cbn [place_row map] in *. inversion S; subst.
    destruct (cmp (fst x) (fst z)); constructor; auto.
Qed.
Lemma sort_sorted l : NoDup (map fst l) -> strictly_sorted (A:=row) (map fst (fold_right place_row [] l)).
Proof.
  induction l as [|x l IH]; simpl; [constructor|]. inversion 1 as [|? ? N1 N2]; subst. apply place_sorted; auto.
  intros I. apply N1. eapply Permutation_in; [apply Permutation_map, sort_perm|]. auto.
Qed.
Lemma filter_keys {A B} (f : A * B -> bool) l : NoDup (map fst l) -> NoDup (map fst (filter f l)).
Proof.
  induction l as [|x l IH]; simpl; auto. inversion 1 as [|? ? N1 N2]; subst. destruct (f x); auto. simpl. constructor; auto.
  intros I. apply N1. apply in_map_iff in I as (y & E & I). apply filter_In in I as [I _]. rewrite <- E. apply in_map. auto.
Qed.
Lemma nonzero_weight l x : weigh (filter (fun y => negb (Z.eqb (snd y) 0)) l) x = weigh l x.
Proof.
  induction l as [|y l IH]; auto. cbn [filter]. destruct (Z.eqb_spec (snd y) 0) as [E|N]; cbn [negb].
  - rewrite IH. rewrite (weight_cons' (A:=row) y l x), E. destruct (eqb _ _); reflexivity.
  - rewrite (weight_cons' (A:=row) y l x). etransitivity; [apply weight_cons'|]. rewrite IH. auto.
Qed.
Definition key_match (key : option Value) (r : row) : bool := match key with Some k => eqb (fst r) k | None => true end.
Lemma total_key e k (x : row) (us : list (row * nat * Z)) :
  total_before e (filter (fun u : row * nat * Z => eqb (fst (fst (fst u))) k) us) x = if eqb (fst x) k then total_before e us x else 0%Z.
Proof.
  induction us as [|u us IH]; [destruct (eqb (fst x) k); auto|].
  cbn [filter]. destruct (eqb_spec (fst (fst (fst u))) k) as [E|N].
  - rewrite !total_cons, IH. destruct (eqb_spec (fst x) k) as [E'|N']; auto. destruct (eqb_spec (A:=row) (fst (fst u)) x) as [X|X]; [congruence|]. auto.
  - rewrite IH. destruct (eqb_spec (fst x) k) as [E'|N']; auto. rewrite total_cons. destruct (eqb_spec (A:=row) (fst (fst u)) x) as [X|X]; [congruence|]. cbn [andb]. lia.
Qed.
Lemma peek_all e key us : consolidated (A:=row) (peek_rows e key us) /\
  forall x, weigh (peek_rows e key us) x = if key_match key x then total_before e us x else 0%Z.
Proof.
  unfold peek_rows. set (us' := match key with Some k => filter (fun u => eqb (fst (fst (fst u))) k) us | None => us end).
  destruct (bump_all e us' [] ltac:(constructor)) as [U W]. set (m := fold_left (fun (m : list (row * Z)) (u : row * nat * Z) => if snd (fst u) <? e then bump (fst (fst u)) (snd u) m else m) us' []) in *.
  split.
  - split; [apply sort_sorted, filter_keys, U|]. apply Forall_forall. intros y I. apply (Permutation_in _ (sort_perm _)) in I. apply filter_In in I as [_ I].
    cbn [is_zero Diff_Z]. rewrite Z.eqb_sym. destruct (Z.eqb (snd y) 0); [discriminate|auto].
  - intros x. rewrite (weight_perm (A:=row) _ _ (sort_perm _) x), nonzero_weight, W, weight_nil. cbn [dzero Diff_Z]. rewrite Z.add_0_l.
    destruct key as [k|]; cbn [key_match]; [|auto]. apply total_key.
Qed.
Lemma key_match_spec key r : key_match key r = true <-> key_matches key r.
Proof. destruct key as [k|]; simpl; [apply eqb_eq|tauto]. Qed.
Lemma total_acc t us r : total_before (S t) us r = acc (D:=row) (T:=nat) (R:=Z) us r t.
Proof.
  induction us as [|u us IH]; [reflexivity|]. rewrite total_cons, IH. symmetry. etransitivity; [apply acc_cons'|].
  assert (Z : tle (snd (fst u)) t = (snd (fst u) <? S t)) by (apply eq_true_iff_eq; rewrite Nat.ltb_lt, nat_tle; lia).
  match goal with |- context [tle ?a ?b] => replace (tle a b) with (snd (fst u) <? S t) by (symmetry; exact Z) end. reflexivity.
Qed.
Lemma total_zero us r : total_before 0 us r = 0%Z.
Proof. induction us as [|u us IH]; [reflexivity|]. rewrite total_cons, IH. cbn [Nat.ltb Nat.leb]. rewrite andb_false_r. auto. Qed.
