(** C12 (galloping search), C41 (offset lists), C45 (slice containers). *)
From Verif Require Import Base.Arrays Model.ContainerM Proofs.ContainerP.
From Coq Require Import NArith.

(** ** C12
    If the predicate holds of exactly the first [n] elements of the range, the answer is [n], and no
    index out of range is read. *)
Theorem c12_advance_counts_prefix : forall (A : Type) (f : A -> bool) (l : list A) (start end_ n : nat),
  end_ <= length l -> start + n <= end_ ->
  (forall i x, start <= i < end_ -> nth_error l i = Some x -> (f x = true <-> i < start + n)) ->
  advance f l start end_ = Some n.
Proof.
  intros A f l start end_ n H1 H2 H3. apply advance_ok; auto; [lia|].
  intros i x Hi Hx. specialize (H3 i x Hi Hx). destruct (f x), (Nat.ltb_spec i (start + n)); intuition congruence || lia.
Qed.
Print Assumptions c12_advance_counts_prefix.

(** 100 elements, searched from index 3 within the first 90: growing and shrinking phases both run. *)
Example c12_advance_ex : advance (fun x => x <? 57) (seq 0 100) 3 90 = Some 54 /\ advance (fun x => x <? 8) (seq 0 100) 3 90 = Some 5.
Proof. vm_compute; auto. Qed.

(** ** C41 *)
(** What was pushed since the last [clear]. *)
Definition pushed (ops : list ol_op) : list N :=
  fold_left (fun acc op => match op with OLPush n => acc ++ [n] | OLClear => [] end) ops [].

Lemma ol_run_pushed ops o : forall acc, ol_contents o = acc ->
  ol_contents (fold_left ol_step ops o) = fold_left (fun acc op => match op with OLPush n => acc ++ [n] | OLClear => [] end) ops acc.
Proof.
  revert o; induction ops as [|[n|] ops IH]; intros o acc H; simpl; auto.
  - apply IH. simpl. rewrite ol_push_contents. congruence.
Qed.

Theorem c41_offset_list_lossless : forall ops,
  ol_len (ol_run ops) = length (pushed ops) /\
  (forall i, ol_index (ol_run ops) i = nth_error (pushed ops) i) /\
  ol_iter (length (pushed ops)) (ol_run ops) 0 = Some (pushed ops).
Proof.
  intros ops. pose proof (ol_run_pushed ops ol_with_capacity [] eq_refl) as E. fold (ol_run ops) in E. fold (pushed ops) in E.
  split; [rewrite <- E; apply ol_len_contents|]. split.
  - intros i. rewrite <- E. apply ol_index_contents.
  - rewrite <- E at 1. rewrite ol_iter_contents; rewrite <- ?ol_len_contents; simpl; [f_equal; exact E|lia].
Qed.
Print Assumptions c41_offset_list_lossless.

Example c41_ex : let o := ol_run [OLPush 3; OLClear; OLPush 0; OLPush 0; OLPush 7; OLPush 0; OLPush 5000000000; OLPush 4]%N in
  (zero_prefix o, smol o, chonk o) = (2, [7; 0]%N, [5000000000; 4]%N) /\ ol_index o 4 = Some 5000000000%N /\ ol_index o 6 = None.
Proof. vm_compute; auto. Qed.

(** ** C45 *)
Definition pushed_slices {B} (ops : list (sc_op B)) : list (list B) :=
  fold_left (fun acc op => match op with SCPush i => acc ++ [i] | SCClear => [] end) ops [].

Lemma sc_run_inv {B} (ops : list (sc_op B)) : forall s ls, sc_inv s ls ->
  sc_inv (fold_left sc_step ops s) (fold_left (fun acc op => match op with SCPush i => acc ++ [i] | SCClear => [] end) ops ls).
Proof.
  induction ops as [|[i|] ops IH]; intros s ls H; simpl; auto.
  - apply IH. apply sc_push_inv; auto.
  - apply IH. apply sc_new_inv.
Qed.

Theorem c45_slices_lossless : forall (B : Type) (ops : list (sc_op B)),
  sc_len (sc_run ops) = length (pushed_slices ops) /\
  (forall i, sc_index (sc_run ops) i = nth_error (pushed_slices ops) i).
Proof.
  intros B ops. assert (H : sc_inv (sc_run ops) (pushed_slices ops)).
  { apply sc_run_inv, sc_new_inv. }
  split; [apply sc_len_ok; auto|]. intros i. apply sc_index_ok; auto.
Qed.
Print Assumptions c45_slices_lossless.

Example c45_ex : sc_index (sc_run [SCPush [1; 2]; SCPush []; SCPush [3]]) 1 = Some [] /\
  sc_index (sc_run [SCPush [1; 2]; SCPush []; SCPush [3]]) 2 = Some [3].
Proof. vm_compute; auto. Qed.

(** A finding: [clone_onto] does not work for a destination of another length. *)
Theorem c45_slices_clone_onto_refuted : forall (B : Type) (item other : list B),
  length item <> length other -> sc_clone_onto item other = None.
Proof. intros B item other H. unfold sc_clone_onto. destruct (Nat.eqb_spec (length item) (length other)); [contradiction|reflexivity]. Qed.
Print Assumptions c45_slices_clone_onto_refuted.
