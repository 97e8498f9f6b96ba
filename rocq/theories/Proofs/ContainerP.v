(** * Proofs about the batch containers *)
From Verif Require Import Base.Arrays Model.ContainerM.
From Coq Require Import NArith.

Section GallopP.
Context {A : Type}.
Variable f : A -> bool.
Variables (l : list A) (start end_ n : nat).
Hypothesis Hse : start <= end_.
Hypothesis Hel : end_ <= length l.
Hypothesis Hn : start + n <= end_.
Hypothesis Hf : forall i x, start <= i < end_ -> nth_error l i = Some x -> f x = (i <? start + n).

Lemma probe_ok i : probe f l start end_ i = Some (i <? n).
Proof.
  unfold probe. destruct (Nat.ltb_spec (start + i) end_) as [H|H].
  - destruct (get_some l (start + i)) as [x Hx]; [lia|]. rewrite Hx.
    rewrite (Hf (start + i) x) by (auto; lia). f_equal.
    destruct (Nat.ltb_spec (start + i) (start + n)), (Nat.ltb_spec i n); auto; lia.
  - f_equal. symmetry; apply Nat.ltb_ge; lia.
Qed.

Lemma grow_ok fuel index k : index < n -> n < fuel + index ->
  exists index' k', gallop_grow f fuel l start end_ index (2 ^ k) = Some (index', 2 ^ k') /\
    index' < n <= index' + 2 ^ k'.
Proof.
  revert index k; induction fuel as [|fuel IH]; intros index k H1 H2; [lia|].
  cbn [gallop_grow]. rewrite probe_ok. destruct (Nat.ltb_spec (index + 2 ^ k) n) as [H|H].
  - assert (0 < 2 ^ k) by (apply Nat.neq_0_lt_0, Nat.pow_nonzero; lia).
    destruct (IH (index + 2 ^ k) (S k)) as (i' & k' & E & B); [lia|lia|].
    exists i', k'. split; auto.
  - exists index, k. split; auto.
Qed.

Lemma shrink_ok fuel index k : index < n -> 2 ^ k <= fuel -> n <= index + 2 * 2 ^ k ->
  gallop_shrink f fuel l start end_ index (2 ^ k) = Some (n - 1).
Proof.
  revert fuel index; induction k as [|k IH]; intros fuel index H1 H2 H3.
  - destruct fuel as [|fuel]; [simpl in H2; lia|]. cbn [Nat.pow gallop_shrink].
    rewrite probe_ok. replace (1 / 2) with 0 by reflexivity. simpl in H3.
    destruct (Nat.ltb_spec (index + 1) n); destruct fuel; cbn [gallop_shrink]; f_equal; lia.
  - destruct fuel as [|fuel]; [assert (2 ^ S k <> 0) by (apply Nat.pow_nonzero; lia); lia|].
    assert (Hp : 2 ^ k <> 0) by (apply Nat.pow_nonzero; lia).
    cbn [gallop_shrink]. destruct (2 ^ S k) as [|s] eqn:E; [simpl in E; lia|]. rewrite <- E in *.
    rewrite probe_ok. replace (2 ^ S k / 2) with (2 ^ k).
    2:{ rewrite Nat.pow_succ_r', Nat.mul_comm, Nat.div_mul by lia. reflexivity. }
    rewrite Nat.pow_succ_r' in *.
    destruct (Nat.ltb_spec (index + 2 * 2 ^ k) n).
    + apply IH; lia.
    + apply IH; lia.
Qed.

Lemma count_sat_ok m s : start <= s -> s + m <= end_ ->
  count_sat f m l s = Some (Nat.min m (start + n - s)).
Proof.
  revert s; induction m as [|m IH]; intros s H1 H2; cbn [count_sat]; auto.
  destruct (get_some l s) as [x Hx]; [lia|]. rewrite Hx.
  rewrite IH by lia. f_equal. rewrite (Hf s x) by (auto; lia).
  destruct (Nat.ltb_spec s (start + n)); lia.
Qed.

Lemma advance_ok : advance f l start end_ = Some n.
Proof.
  unfold advance.
  change (if start + small_limit <? end_ then x <- get l (start + small_limit); Some (f x) else Some false)
    with (probe f l start end_ small_limit).
  rewrite !probe_ok. unfold small_limit. destruct (Nat.ltb_spec 8 n) as [H8|H8].
  - destruct (Nat.ltb_spec (8 + 1) n) as [H9|H9]; [|f_equal; lia].
    destruct (grow_ok (S end_) (8 + 1) 0) as (i' & k' & E & B1 & B2); [lia|lia|].
    change (2 ^ 0) with 1 in E. rewrite E.
    destruct k' as [|k'].
    + change (2 ^ 0) with 1 in *. change (1 / 2) with 0. cbn [gallop_shrink]. f_equal; lia.
    + replace (2 ^ S k' / 2) with (2 ^ k').
      2:{ rewrite Nat.pow_succ_r', Nat.mul_comm, Nat.div_mul by lia. reflexivity. }
      rewrite Nat.pow_succ_r' in *. rewrite shrink_ok by lia. f_equal; lia.
  - rewrite count_sat_ok by lia. f_equal. lia.
Qed.
End GallopP.

(** ** Offset lists *)
Definition ol_contents (o : OffsetList) : list N := repeat 0%N (zero_prefix o) ++ smol o ++ chonk o.

Lemma ol_push_contents o n : ol_contents (ol_push o n) = ol_contents o ++ [n].
Proof.
  unfold ol_contents, ol_push. destruct o as [z s c]; simpl.
  destruct s as [|s0 s], c as [|c0 c]; simpl; try (destruct (N.eqb_spec n 0)); try (destruct (N.ltb n u32_limit)); simpl;
    repeat rewrite <- app_assoc; simpl; auto; try congruence.
  all: try (rewrite app_nil_r, e; apply repeat_cons).
  all: rewrite ?app_nil_r, <- ?app_assoc; reflexivity.
Qed.

Lemma ol_index_contents o i : ol_index o i = nth_error (ol_contents o) i.
Proof.
  unfold ol_index, ol_contents. destruct (Nat.ltb_spec i (zero_prefix o)) as [H|H].
  - rewrite nth_error_app1 by (rewrite repeat_length; lia).
    symmetry. rewrite nth_error_repeat; auto.
  - rewrite nth_error_app2 by (rewrite repeat_length; lia). rewrite repeat_length.
    destruct (Nat.ltb_spec (i - zero_prefix o) (length (smol o))) as [H'|H'].
    + rewrite nth_error_app1 by lia. reflexivity.
    + rewrite nth_error_app2 by lia. reflexivity.
Qed.

Lemma ol_len_contents o : ol_len o = length (ol_contents o).
Proof. unfold ol_len, ol_contents. rewrite !app_length, repeat_length. lia. Qed.

Lemma ol_iter_contents o k i : i + k = ol_len o -> ol_iter k o i = Some (skipn i (ol_contents o)).
Proof.
  revert i; induction k as [|k IH]; intros i H; cbn [ol_iter].
  - destruct (Nat.ltb_spec i (ol_len o)); [lia|]. rewrite skipn_all2; auto. rewrite <- ol_len_contents; lia.
  - destruct (Nat.ltb_spec i (ol_len o)); [|lia].
    rewrite ol_index_contents. destruct (get_some (ol_contents o) i) as [x Hx]; [rewrite <- ol_len_contents; lia|].
    unfold get in Hx; rewrite Hx. rewrite IH by lia. f_equal. symmetry. apply skipn_get. exact Hx.
Qed.

(** ** Slice containers *)
Section SlicesP.
Context {B : Type}.

Definition sc_inv (s : SliceContainer B) (ls : list (list B)) : Prop :=
  sc_inner s = concat ls /\
  length (sc_offsets s) = S (length ls) /\
  forall i, i <= length ls -> nth_error (sc_offsets s) i = Some (length (concat (firstn i ls))).

Lemma concat_firstn_le (ls : list (list B)) i : length (concat (firstn i ls)) <= length (concat ls).
Proof.
  rewrite <- (firstn_skipn i ls) at 2. rewrite concat_app, app_length. lia.
Qed.

Lemma sc_push_inv s ls x : sc_inv s ls -> sc_inv (sc_push s x) (ls ++ [x]).
Proof.
  intros (E & L & H). unfold sc_push, sc_inv; simpl. rewrite concat_app; simpl; rewrite app_nil_r.
  rewrite E. rewrite !app_length; simpl. split; [auto|]. split; [lia|].
  intros i Hi. destruct (Nat.le_gt_cases i (length ls)) as [H'|H'].
  - rewrite nth_error_app1 by lia. rewrite firstn_app. replace (i - length ls) with 0 by lia.
    simpl; rewrite app_nil_r. auto.
  - replace i with (length ls + 1) in * by lia. rewrite nth_error_app2 by lia.
    rewrite L. replace (length ls + 1 - S (length ls)) with 0 by lia. simpl. f_equal.
    rewrite firstn_all2 by (rewrite app_length; simpl; lia). rewrite concat_app, !app_length. simpl. rewrite app_nil_r. lia.
Qed.

Lemma sc_index_ok s ls i : sc_inv s ls -> sc_index s i = nth_error ls i.
Proof.
  intros (E & L & H). unfold sc_index. destruct (nth_error ls i) as [x|] eqn:Ex.
  - assert (Hi : i < length ls) by (apply nth_error_Some; congruence).
    unfold get. rewrite (H i) by lia. rewrite (H (i + 1)) by lia.
    unfold slice.
    assert (Es : firstn (i + 1) ls = firstn i ls ++ [x]).
    { replace (i + 1) with (S i) by lia. apply firstn_S_get. exact Ex. }
    assert (Ec : concat ls = concat (firstn i ls) ++ x ++ concat (skipn (S i) ls)).
    { rewrite <- (firstn_skipn i ls) at 1. rewrite concat_app. f_equal.
      rewrite (skipn_get ls i x Ex). reflexivity. }
    rewrite Es, concat_app, app_length, E, Ec.
    generalize (concat (firstn i ls)) as p, (concat (skipn (S i) ls)) as q. intros p q.
    change (concat [x]) with (x ++ []). rewrite app_nil_r, !app_length.
    rewrite (proj2 (Nat.leb_le (length p) _)) by lia.
    rewrite (proj2 (Nat.leb_le (length p + length x) _)) by lia. simpl. f_equal.
    rewrite skipn_app, skipn_all2 by lia. rewrite Nat.sub_diag. simpl.
    replace (length p + length x - length p) with (length x + 0) by lia.
    rewrite firstn_app_2. simpl. apply app_nil_r.
  - apply nth_error_None in Ex. unfold get.
    destruct (nth_error (sc_offsets s) i); auto.
    rewrite (proj2 (nth_error_None (sc_offsets s) (i + 1))); auto. lia.
Qed.

Lemma sc_len_ok s ls : sc_inv s ls -> sc_len s = length ls.
Proof. intros (E & L & H). unfold sc_len. lia. Qed.

Lemma sc_new_inv : sc_inv (@sc_new B) [].
Proof.
  repeat split. simpl. intros i Hi. assert (i = 0) by lia; subst; reflexivity.
Qed.
End SlicesP.
