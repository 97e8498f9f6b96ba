(** Properties of prefix sums. *)
From Verif Require Import Base.Collections Spec.PrefixSumSpec Proofs.OperatorsP Proofs.PrefixSumP.

(** C44.  Each queried position of each key is answered, as often as it was asked, with the combination in
    position order of [zero] and all the values of that key at strictly smaller positions, and with nothing else.
    Holds for every set of values and queries, and every associative function for which [zero], which stands for
    what is missing, makes no difference on the right.  [bits] is the width of a position. *)
Theorem c44_prefix_sum_at : forall {K D : Type} {OK : Ord K} {OD : Ord D} (bits rounds : nat) (combine : K -> D -> D -> D) (zero : D)
    (value : nat -> K -> option D) (c : coll (nat * K * D)) (queries : coll (nat * K)),
  associative combine -> (forall k a, combine k a zero = a) ->
  presents_values c value ->
  (forall i k, 0 <= weight queries (i, k))%Z -> (forall i k, weight queries (i, k) <> 0%Z -> i < 2 ^ bits) ->
  bits <= rounds ->
  forall i k d, weight (prefix_sum_at bits rounds combine c queries zero) (i, k, d) =
                if eqb d (prefix combine value zero k i) then weight queries (i, k) else 0%Z.
Proof.
  intros K D OK OD bits rounds combine zero value c queries HA HZ HV HN HF Hr i k d. unfold prefix_sum_at.
  apply (broadcast_ok bits rounds combine HA zero HZ value queries).
  - intros [i' k']. apply HN.
  - intros i' k' H. apply (HF i' k'). lia.
  - apply aggregate_ok; auto.
  - auto.
Qed.
Print Assumptions c44_prefix_sum_at.

(** C44.  And so for the positions that have values. *)
Theorem c44_prefix_sum : forall {K D : Type} {OK : Ord K} {OD : Ord D} (bits rounds : nat) (combine : K -> D -> D -> D) (zero : D)
    (value : nat -> K -> option D) (c : coll (nat * K * D)),
  associative combine -> (forall k a, combine k a zero = a) ->
  presents_values c value -> (forall i k, value i k <> None -> i < 2 ^ bits) -> bits <= rounds ->
  forall i k d, weight (prefix_sum bits rounds combine c zero) (i, k, d) =
                match value i k with
                | Some _ => if eqb d (prefix combine value zero k i) then 1%Z else 0%Z
                | None => 0%Z
                end.
Proof.
  intros K D OK OD bits rounds combine zero value c HA HZ HV HF Hr i k d.
  assert (HQ : forall i k, weight (k_map fst c) (i, k) = match value i k with Some _ => 1%Z | None => 0%Z end).
  { clear - HV. intros i k. 
    assert (ES : weight (k_map fst c) (i, k) = weight (k_map fst (k_filter (fun x => eqb (fst x) (i, k)) c)) (i, k)).
    { clear. unfold k_map, k_filter. induction c as [|x c IH]; [reflexivity|]. cbn [map filter]. rewrite weight_cons', IH. cbn [fst snd].
      destruct (eqb_spec (fst (fst x)) (i, k)) as [Ex|Ex].
      - cbn [map fst snd]. rewrite weight_cons'. cbn [fst snd]. rewrite Ex, eqb_refl. auto.
      - apply dplus_0_l. }
    rewrite ES.
    assert (SW : same_weights (k_filter (fun x : nat * K * D => eqb (fst x) (i, k)) c) (match value i k with Some x => [((i, k, x), 1%Z)] | None => [] end)).
    { intros [r x]. rewrite w_filter. cbn [fst]. destruct (eqb_spec r (i, k)) as [->|Hne].
      - rewrite HV. destruct (value i k) as [y|]; [|reflexivity]. rewrite weight_one.
        destruct (eqb_spec y x), (eqb_spec (i, k, y) (i, k, x)); try congruence; auto.
      - destruct (value i k) as [y|]; [|reflexivity]. rewrite weight_one. destruct (eqb_spec (i, k, y) (r, x)); [congruence|auto]. }
    apply (map_same_weights (fun x : nat * K * D => fst x)) in SW. specialize (SW (i, k)). unfold k_map. rewrite SW.
    destruct (value i k) as [y|]; [|reflexivity]. cbn [map fst snd]. rewrite weight_one, eqb_refl. auto. }
  unfold prefix_sum. rewrite (c44_prefix_sum_at bits rounds combine zero value); auto.
  - rewrite HQ. destruct (value i k); auto. destruct (eqb _ _); auto.
  - intros i' k'. rewrite HQ. destruct (value i' k'); lia.
  - intros i' k'. rewrite HQ. intros H. apply (HF i' k'). destruct (value i' k'); congruence.
Qed.
Print Assumptions c44_prefix_sum.

(** Finding: associativity is not enough.  The code fills ranges with no values with [zero] and combines it in, so with an
    associative function that [zero] changes, the answer depends on which positions are missing.  Here the function
    keeps its right argument: the answer at position 3 should be the last value before it, 5, and is 0. *)
Definition last_value (_ : nat) (_ b : nat) : nat := b.
Definition one_value (i k : nat) : option nat := if (i =? 0) && (k =? 7) then Some 5 else None.
Theorem c44_associative_only_refuted :
  associative last_value /\ presents_values [((0, 7, 5), 1%Z)] one_value /\
  prefix last_value one_value 0 7 3 = 5 /\
  weight (prefix_sum_at 4 4 last_value [((0, 7, 5), 1%Z)] [((3, 7), 1%Z)] 0) (3, 7, 5) = 0%Z /\
  weight (prefix_sum_at 4 4 last_value [((0, 7, 5), 1%Z)] [((3, 7), 1%Z)] 0) (3, 7, 0) = 1%Z.
Proof.
  split; [intros k a b c; reflexivity|]. split.
  - intros i k d. rewrite weight_one. unfold one_value. destruct (Nat.eqb_spec i 0) as [->|Hi], (Nat.eqb_spec k 7) as [->|Hk]; cbn [andb].
    + destruct (eqb_spec (0, 7, 5) (0, 7, d)), (eqb_spec 5 d); auto; congruence.
    + destruct (eqb_spec (0, 7, 5) (0, k, d)); auto; congruence.
    + destruct (eqb_spec (0, 7, 5) (i, 7, d)); auto; congruence.
    + destruct (eqb_spec (0, 7, 5) (i, k, d)); auto; congruence.
  - vm_compute. auto.
Qed.
Print Assumptions c44_associative_only_refuted.

(** A case that meets the hypotheses: strings under concatenation, which does not commute, at positions 1, 4, 5 and 11
    of one key and 2 of another, with queries in between and beyond, one of them asked twice. *)
Definition sparse : list (nat * nat * list nat * Z) :=
  [((5, 0, [50; 51]), 1%Z); ((1, 0, [10]), 1%Z); ((2, 1, [99]), 1%Z); ((11, 0, [110]), 1%Z); ((4, 0, [40]), 1%Z)].
Definition sparse_value (i k : nat) : option (list nat) :=
  match k, i with 0, 1 => Some [10] | 0, 4 => Some [40] | 0, 5 => Some [50; 51] | 0, 11 => Some [110] | 1, 2 => Some [99] | _, _ => None end.
Definition asked : list (nat * nat * Z) := [((12, 0), 1%Z); ((5, 0), 2%Z); ((1, 0), 1%Z); ((7, 1), 1%Z); ((0, 0), 1%Z)].
Example c44_sparse :
  associative (fun _ : nat => @app nat) /\ (forall (k : nat) (a : list nat), a ++ [] = a) /\
  (forall i k, 0 <= weight asked (i, k))%Z /\ (forall i k, weight asked (i, k) <> 0%Z -> i < 2 ^ 4) /\
  consolidate (prefix_sum_at 4 4 (fun _ : nat => @app nat) sparse asked []) =
    [((0, 0, []), 1%Z); ((1, 0, []), 1%Z); ((5, 0, [10; 40]), 2%Z); ((7, 1, [99]), 1%Z); ((12, 0, [10; 40; 50; 51; 110]), 1%Z)].
Proof.
  split; [intros k a b c; symmetry; apply app_assoc|]. split; [intros; apply app_nil_r|].
  assert (W : forall i k, weight asked (i, k) = 0%Z \/ (0 < weight asked (i, k))%Z /\ i < 2 ^ 4).
  { intros i k. unfold asked. rewrite !weight_cons'. cbn [fst snd]. rewrite weight_nil. zd.
    destruct (eqb_spec (12, 0) (i, k)) as [E1|]; [injection E1 as <- <-; vm_compute; right; split; [reflexivity|lia]|].
    destruct (eqb_spec (5, 0) (i, k)) as [E1|]; [injection E1 as <- <-; vm_compute; right; split; [reflexivity|lia]|].
    destruct (eqb_spec (1, 0) (i, k)) as [E1|]; [injection E1 as <- <-; vm_compute; right; split; [reflexivity|lia]|].
    destruct (eqb_spec (7, 1) (i, k)) as [E1|]; [injection E1 as <- <-; vm_compute; right; split; [reflexivity|lia]|].
    destruct (eqb_spec (0, 0) (i, k)) as [E1|]; [injection E1 as <- <-; vm_compute; right; split; [reflexivity|lia]|]. auto. }
  split; [intros i k; destruct (W i k) as [->|[? _]]; lia|]. split; [intros i k H; destruct (W i k) as [|[_ ?]]; [contradiction|auto]|].
  vm_compute. reflexivity.
Qed.
(* every value is where [sparse_value] says it is *)
Example c44_sparse_values : presents_values sparse sparse_value.
Proof.
  intros i k d. unfold sparse. rewrite !weight_cons'. cbn [fst snd]. rewrite weight_nil. zd.
  assert (P : forall i' k' (x : list nat), eqb (i', k', x) (i, k, d) = (i' =? i) && (k' =? k) && eqb x d).
  { intros i' k' x. destruct (eqb_spec (i', k', x) (i, k, d)) as [E1|E1].
    - injection E1 as <- <- <-. rewrite !Nat.eqb_refl, eqb_refl. auto.
    - destruct (Nat.eqb_spec i' i), (Nat.eqb_spec k' k), (eqb_spec x d); auto. congruence. }
  rewrite !P. unfold sparse_value. destruct k as [|[|k]]; do 13 (try destruct i as [|i]); cbn [Nat.eqb andb]; try reflexivity;
    match goal with |- context [eqb ?a ?b] => destruct (eqb a b) end; reflexivity.
Qed.
