(** Properties of the graph algorithms. *)
From Verif Require Import Base.Collections Spec.GraphSpec Model.GraphM Proofs.OperatorsP Proofs.GraphP Proofs.SccP Proofs.BijkstraP Proofs.ConsolidationP Spec.SequenceSpec Proofs.SequenceP.

(** C48.  Breadth-first labelling: each node that can be reached from a root is there exactly once, with its distance,
    and no other is.  For every graph and roots, and any number of rounds at least the number of edges (and at least
    one), so that further rounds change nothing. *)
Theorem c48_bfs : forall {N : Type} {ON : Ord N} (edges : coll (N * N)) (roots : coll N) (rounds : nat),
  is_multiset edges -> is_multiset roots -> length edges <= rounds -> 0 < rounds ->
  holds_exactly (bfs rounds edges roots) (fun nd => distance edges roots (fst nd) (snd nd)).
Proof. intros. apply bfs_limit; auto. Qed.
Print Assumptions c48_bfs.

(** C48.  And in each round, the nodes at distances up to the number of rounds. *)
Theorem c48_bfs_round : forall {N : Type} {ON : Ord N} (edges : coll (N * N)) (roots : coll N) (rounds : nat),
  is_multiset edges -> is_multiset roots -> 0 < rounds ->
  holds_exactly (bfs rounds edges roots) (fun nd => distance edges roots (fst nd) (snd nd) /\ snd nd <= rounds).
Proof.
  intros N ON edges roots rounds HE HR H0. unfold bfs. destruct (bfs_ok edges roots HE HR rounds) as [_ H]. eapply holds_iff; [|apply H; auto].
  intros [n d]. cbn [fst snd]. unfold distance, within. split.
  - intros [(H1 & H2) H3]. split; [|auto]. split; [auto|]. intros b Hb. destruct (Nat.le_gt_cases b rounds) as [Hl|Hg]; [apply H3; split; auto|]. apply nat_le. lia.
  - intros [[H1 H2] H3]. split; [auto|]. intros b [_ Hb]. auto.
Qed.
Print Assumptions c48_bfs_round.

(* a graph with a cycle, a short cut, an edge twice, and a part that cannot be reached *)
Definition some_edges : coll (nat * nat) := [((0, 1), 1%Z); ((1, 2), 2%Z); ((2, 3), 1%Z); ((0, 3), 1%Z); ((3, 0), 1%Z); ((4, 5), 1%Z); ((3, 6), 1%Z)].
Lemma some_edges_ok : is_multiset some_edges.
Proof. intros d. unfold some_edges. repeat (rewrite weight_cons'; cbn [fst snd]; zd). rewrite weight_nil. zd. repeat destruct (eqb _ _); lia. Qed.
Example c48_runs : consolidate (bfs 7 some_edges [(0, 1%Z)]) = [((0, 0), 1%Z); ((1, 1), 1%Z); ((2, 2), 1%Z); ((3, 1), 1%Z); ((6, 2), 1%Z)]
  /\ is_multiset some_edges /\ is_multiset [(0, 1%Z)].
Proof.
  split; [vm_compute; reflexivity|]. split; [apply some_edges_ok|]. intros d. rewrite weight_one. zd. destruct (eqb _ _); lia.
Qed.

(** C49.  Label propagation: each node that can be reached from a labelled node has exactly one label, the least of those
    from which it can be reached.  For every graph, labels and [logic] to delay labels, and any number of rounds
    that allows the last label as many rounds as there are edges. *)
Theorem c49_propagate : forall {N L : Type} {ON : Ord N} {OL : Ord L} (edges : coll (N * N)) (nodes : coll (N * L)) (logic : L -> BinNums.N) (rounds : nat),
  is_multiset edges -> is_multiset nodes -> (forall n l, member nodes (n, l) -> 256 * BinNat.N.size_nat (logic l) + length edges <= rounds) ->
  holds_exactly (propagate_at rounds edges nodes logic) (fun nl => least_label edges nodes (fst nl) (snd nl)).
Proof.
  intros N L ON OL edges nodes logic rounds HE HN HR. apply (propagate_limit edges nodes logic HE HN (map fst edges)).
  - intros e. apply member_in.
  - intros m l Hm. rewrite map_length. apply (HR m l Hm).
Qed.
Print Assumptions c49_propagate.

(** C49.  The delays change nothing but when: as far as the final labels go, [propagate] and [propagate_at] agree. *)
Theorem c49_delays : forall {N L : Type} {ON : Ord N} {OL : Ord L} (edges : coll (N * N)) (nodes : coll (N * L)) (logic : L -> BinNums.N) (rounds : nat),
  is_multiset edges -> is_multiset nodes -> (forall n l, member nodes (n, l) -> 256 * BinNat.N.size_nat (logic l) + length edges <= rounds) ->
  same_weights (propagate_at rounds edges nodes logic) (propagate rounds edges nodes).
Proof.
  intros N L ON OL edges nodes logic rounds HE HN HR. eapply holds_same; [apply c49_propagate; auto|]. apply c49_propagate; auto.
  intros n l H. specialize (HR n l H). change (BinNat.N.size_nat 0) with 0. lia.
Qed.
Print Assumptions c49_delays.

(** C49.  In each round, a node has the least of the labels that have had the rounds to get to it: the round at which
    the label enters, and one for each edge. *)
Theorem c49_round : forall {N L : Type} {ON : Ord N} {OL : Ord L} (edges : coll (N * N)) (nodes : coll (N * L)) (logic : L -> BinNums.N) (rounds : nat),
  is_multiset edges -> is_multiset nodes ->
  holds_exactly (propagate_at rounds edges nodes logic)
    (fun nl => least (fun l => exists m k, member nodes (m, l) /\ walk edges k m (fst nl) /\ 256 * BinNat.N.size_nat (logic l) + k <= rounds) (snd nl)).
Proof. intros N L ON OL edges nodes logic rounds HE HN. apply propagate_ok; auto. Qed.
Print Assumptions c49_round.

Definition some_labels : coll (nat * nat) := [((1, 30), 1%Z); ((2, 20), 1%Z); ((4, 50), 2%Z)].
Example c49_runs : consolidate (propagate_at 300 some_edges some_labels (fun l => if l =? 20 then 1%N else 0%N))
                   = [((0, 20), 1%Z); ((1, 20), 1%Z); ((2, 20), 1%Z); ((3, 20), 1%Z); ((4, 50), 1%Z); ((5, 50), 1%Z); ((6, 20), 1%Z)]
  /\ is_multiset some_labels.
Proof.
  split; [vm_compute; reflexivity|]. intros d. unfold some_labels. repeat (rewrite weight_cons'; cbn [fst snd]; zd). rewrite weight_nil. zd. repeat destruct (eqb _ _); lia.
Qed.

(** C50.  Strongly connected components: each edge between nodes that can be reached from each other is there, as often as in
    the graph, and no other is.  For every graph and [logic], any number of rounds at least the number of edges, and
    inner loops that are given the rounds of C49. *)
Theorem c50_scc : forall {N : Type} {ON : Ord N} (graph : coll (N * N)) (logic : N -> BinNums.N) (rounds inner : nat),
  is_multiset graph -> length graph <= rounds -> (forall n, 256 * BinNat.N.size_nat (logic n) + length graph <= inner) ->
  forall x y, (same_component graph x y -> weight (strongly_connected_at rounds inner graph logic) (x, y) = weight graph (x, y)) /\
              (~ same_component graph x y -> weight (strongly_connected_at rounds inner graph logic) (x, y) = 0%Z).
Proof. intros N ON graph logic rounds inner HG HR HI x y. unfold strongly_connected_at. apply scc_ok; auto. Qed.
Print Assumptions c50_scc.
Theorem c50_scc_plain : forall {N : Type} {ON : Ord N} (graph : coll (N * N)) (rounds inner : nat),
  is_multiset graph -> length graph <= rounds -> length graph <= inner ->
  forall x y, (same_component graph x y -> weight (strongly_connected rounds inner graph) (x, y) = weight graph (x, y)) /\
              (~ same_component graph x y -> weight (strongly_connected rounds inner graph) (x, y) = 0%Z).
Proof. intros N ON graph rounds inner HG HR HI x y. apply c50_scc; auto. Qed.
Print Assumptions c50_scc_plain.
Example c50_runs : consolidate (strongly_connected 7 7 some_edges) = [((0, 1), 1%Z); ((0, 3), 1%Z); ((1, 2), 2%Z); ((2, 3), 1%Z); ((3, 0), 1%Z)].
Proof. vm_compute. reflexivity. Qed.
(* more than one round is needed *)
Example c50_rounds : let g := [((1, 2), 1%Z); ((2, 1), 1%Z); ((0, 3), 1%Z); ((3, 4), 1%Z); ((4, 1), 1%Z); ((5, 0), 1%Z); ((6, 5), 1%Z); ((5, 6), 1%Z)] in
  consolidate (strongly_connected 1 8 g) = [((1, 2), 1%Z); ((2, 1), 1%Z); ((3, 4), 1%Z); ((4, 1), 1%Z); ((5, 6), 1%Z); ((6, 5), 1%Z)] /\
  consolidate (strongly_connected 8 8 g) = [((1, 2), 1%Z); ((2, 1), 1%Z); ((5, 6), 1%Z); ((6, 5), 1%Z)].
Proof. vm_compute. auto. Qed.

(** C51.  Searching from both ends: each goal whose target can be reached from its source is there as often as it was asked, with
    the distance, and nothing else is.  For every graph and goals, however the searches of several goals share
    sources and targets, and any number of rounds at least the number of edges. *)
Theorem c51_bidijkstra : forall {N : Type} {ON : Ord N} (edges goals : coll (N * N)) (rounds : nat),
  is_multiset edges -> is_multiset goals -> length edges <= rounds ->
  forall source target d,
  (least (fun k => walk edges k source target) d -> weight (bidijkstra rounds edges goals) (source, target, d) = weight goals (source, target)) /\
  (~ least (fun k => walk edges k source target) d -> weight (bidijkstra rounds edges goals) (source, target, d) = 0%Z).
Proof. intros N ON edges goals rounds HE HG HR s t d. apply bidijkstra_ok; auto. Qed.
Print Assumptions c51_bidijkstra.
Definition some_goals : coll (nat * nat) := [((0, 6), 1%Z); ((1, 0), 2%Z); ((0, 0), 1%Z); ((0, 5), 1%Z); ((2, 6), 1%Z)].
Example c51_runs : consolidate (bidijkstra 7 some_edges some_goals) = [((0, 0, 0), 1%Z); ((0, 6, 2), 1%Z); ((1, 0, 3), 2%Z); ((2, 6, 2), 1%Z)]
  /\ is_multiset some_goals.
Proof.
  split; [vm_compute; reflexivity|]. intros d. unfold some_goals. repeat (rewrite weight_cons'; cbn [fst snd]; zd). rewrite weight_nil. zd. repeat destruct (eqb _ _); lia.
Qed.

(** C52.  [sequence] gives the nodes the values they get when [logic] is applied to one node after another, in order
    of their identifiers, to the new values of smaller neighbours and the old values of larger ones; a node that no
    edge brings a value gets none.  For every graph, state and [logic], any ordered list of nodes with all those that
    edges lead to, and any number of rounds more than the number of edges. *)
Theorem c52_sequence : forall {N V : Type} {ON : Ord N} {OV : Ord V} (logic : N -> list (V * Z) -> V) (state : coll (N * V)) (edges : coll (N * N)) (nodes : list N) (rounds : nat),
  is_multiset edges -> is_multiset state ->
  strictly_sorted nodes -> (forall m n, member edges (m, n) -> In n nodes) -> length edges < rounds ->
  holds_exactly (sequence rounds state edges logic) (fun no => exists v, snd no = Some v /\ In (fst no, v) (in_order logic edges state nodes [])).
Proof.
  intros N V ON OV logic state edges nodes rounds HE HS HN HC HR. set (fin := in_order logic edges state nodes []).
  destruct (in_order_ok logic edges state nodes [] HN) as [F1 F2]; [intros n x _ []|]. fold fin in F1, F2.
  assert (HF : forall n, new_value fin n = match values_into edges state fin n with [] => [] | vs => [logic n vs] end).
  { intros n. destruct (in_dec eq_dec n nodes) as [Hi|Hi]; [auto|]. rewrite (F1 n Hi), no_values_into; [reflexivity|auto|]. intros m Hm. apply Hi. eauto. }
  intros [n o]. pose proof (fires logic edges state fin HE HS HF rounds n HR o) as W. unfold sequence. rewrite W. cbn [fst snd].
  assert (HI : forall v, In (n, v) fin <-> In v (new_value fin n)).
  { intros v. unfold new_value. rewrite in_map_iff. split.
    - intros H. exists (n, v). split; [auto|]. apply filter_In. split; [auto|]. apply eqb_refl.
    - intros ([a u] & <- & H). apply filter_In in H as [H H']. apply (proj1 (eqb_eq _ _)) in H'. cbn [fst snd] in *. subst. auto. }
  assert (E0 : new_value fin n = [] \/ exists v, new_value fin n = [v]). { rewrite HF. destruct (values_into edges state fin n); eauto. }
  destruct E0 as [E0|(v & E0)]; rewrite E0 in *; cbn [map].
  - right. split; [|reflexivity]. intros (v & _ & H). apply HI in H. destruct H.
  - rewrite weight_one. destruct (eqb_spec (Some v) o) as [<-|Ho]; [left|right]; (split; [|reflexivity]).
    + exists v. split; [auto|]. apply HI. left. auto.
    + intros (u & -> & H). apply HI in H as [->|[]]. auto.
Qed.
Print Assumptions c52_sequence.
(* the least colour, from one, that no neighbour has *)
Definition free_colour (_ : nat) (vs : list (nat * Z)) : nat := fold_left (fun c v => if fst v =? c then S c else c) vs 1.
Definition ring : coll (nat * nat) := [((0, 1), 1%Z); ((1, 0), 1%Z); ((1, 2), 1%Z); ((2, 1), 1%Z); ((2, 0), 1%Z); ((0, 2), 1%Z); ((2, 3), 1%Z); ((3, 2), 1%Z)].
Definition uncoloured : coll (nat * nat) := [((0, 99), 1%Z); ((1, 99), 1%Z); ((2, 99), 1%Z); ((3, 99), 1%Z)].
Example c52_runs : consolidate (sequence 9 uncoloured ring free_colour) = [((0, Some 1), 1%Z); ((1, Some 2), 1%Z); ((2, Some 3), 1%Z); ((3, Some 1), 1%Z)]
  /\ in_order free_colour ring uncoloured [0; 1; 2; 3] [] = [(3, 1); (2, 3); (1, 2); (0, 1)]
  /\ is_multiset ring /\ is_multiset uncoloured.
Proof.
  split; [vm_compute; reflexivity|]. split; [vm_compute; reflexivity|].
  split; intros d; [unfold ring|unfold uncoloured]; repeat (rewrite weight_cons'; cbn [fst snd]; zd); rewrite weight_nil; zd; repeat destruct (eqb _ _); lia.
Qed.

(** Finding: not every node with a state gets a value.  The documentation says that [logic] is applied to nodes in
    order; a node that no edge brings a value is dropped, state and all, after the first round. *)
Theorem c52_every_node_refuted :
  exists (state : coll (nat * nat)) (edges : coll (nat * nat)) n, is_multiset state /\ is_multiset edges /\ member state (n, 99) /\
    forall rounds o, 0 < rounds -> weight (sequence rounds state edges free_colour) (n, o) = 0%Z.
Proof.
  exists [((0, 99), 1%Z); ((1, 99), 1%Z)], [((0, 1), 1%Z)], 0.
  assert (M1 : is_multiset [((0, 99), 1%Z); ((1, 99), 1%Z)]). { intros d. repeat (rewrite weight_cons'; cbn [fst snd]; zd). rewrite weight_nil. zd. repeat destruct (eqb _ _); lia. }
  assert (M2 : is_multiset [((0, 1), 1%Z)]). { intros d. rewrite weight_one. zd. destruct (eqb _ _); lia. }
  split; [auto|]. split; [auto|]. split; [unfold member; vm_compute; reflexivity|]. intros rounds o H0.
  destruct rounds as [|[|rounds]]; [lia| |].
  - destruct o as [v|]; unfold sequence; cbn [k_iterate].
    + match goal with |- weight ?l _ = _ => let l' := eval vm_compute in l in change l with l' end. repeat (rewrite weight_cons'; cbn [fst snd]). rewrite weight_nil. repeat destruct (eqb_spec _ _); try congruence; reflexivity.
    + vm_compute. reflexivity.
  - destruct (c52_sequence free_colour [((0, 99), 1%Z); ((1, 99), 1%Z)] [((0, 1), 1%Z)] [1] (S (S rounds)) M2 M1) with (d := (0, o)) as [[(v & _ & H) _]|[_ H]]; auto.
    + constructor.
    + intros m n H. unfold member in H. rewrite weight_one in H. destruct (eqb_spec (0, 1) (m, n)) as [E0|]; [injection E0 as <- <-; left; auto|cbn in H; zd; lia].
    + cbn [length]. lia.
    + exfalso. vm_compute in H. contradiction.
Qed.
Print Assumptions c52_every_node_refuted.
