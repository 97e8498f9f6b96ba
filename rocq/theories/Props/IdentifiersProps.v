(** * C53: identifiers *)
From Verif Require Import Base.Collections Spec.IdentifierSpec Model.IdentifiersM Proofs.OperatorsP Proofs.IdentifiersP.
Local Open Scope Z_scope.

(** ** C53: every record has one identifier, and when the loop has stopped changing no two records have the same *)
Theorem c53_identifiers {D H} {OD : Ord D} {OH : Ord H} (hashed : nat * D -> H) (rounds : nat) (c : coll D) :
  one_identifier_each c (identifiers hashed rounds c) /\
  (same_weights (id_diff hashed (S rounds) c) (id_diff hashed rounds c) -> identifiers_differ (identifiers hashed rounds c)).
Proof.
  split.
  - exists (fun d => hashed (rounds_of hashed c rounds d, d)). intros d i. apply w_identifiers.
  - intros HS d d' i. rewrite !w_identifiers. destruct (eqb_spec (hashed (rounds_of hashed c rounds d, d)) i) as [E0|]; [|contradiction].
    destruct (eqb_spec (hashed (rounds_of hashed c rounds d', d')) i) as [E1|]; [|contradiction]. intros W W'. apply (settled_unique hashed c rounds); congruence.
Qed.
Print Assumptions c53_identifiers.

(** Once it has stopped changing, further rounds change nothing. *)
Theorem c53_stays {D H} {OD : Ord D} {OH : Ord H} (hashed : nat * D -> H) (rounds more : nat) (c : coll D) :
  same_weights (id_diff hashed (S rounds) c) (id_diff hashed rounds c) -> (rounds <= more)%nat -> same_weights (identifiers hashed more c) (identifiers hashed rounds c).
Proof.
  intros HS Hr. unfold identifiers. apply (map_same_weights (fun pair : nat * D => (snd pair, hashed pair))). intros a. rewrite !w_concat. rewrite (settled_stays hashed c rounds more HS Hr a). auto.
Qed.
Print Assumptions c53_stays.

(** It does stop when, from some round on, no record's hash is also another's. *)
Theorem c53_stops {D H} {OD : Ord D} {OH : Ord H} (hashed : nat * D -> H) (bound : nat) (c : coll D) :
  (forall q d q' d', weight c d <> 0 -> weight c d' <> 0 -> d <> d' -> (bound <= q)%nat -> hashed (q, d) <> hashed (q', d')) ->
  exists rounds, (rounds <= length c * bound)%nat /\ same_weights (id_diff hashed (S rounds) c) (id_diff hashed rounds c).
Proof.
  intros HB. destruct (settles hashed c bound (map fst c)) as (r & H1 & H2); [|exact HB|].
  - intros d W. destruct (in_dec eq_dec d (map fst c)) as [|N]; [auto|]. exfalso. apply W. exact (weight_notin c d N).
  - exists r. rewrite map_length in H1. split; auto.
Qed.
Print Assumptions c53_stops.

(** With no collisions at all the identifiers are the first hashes. *)
Theorem c53_no_collisions {D H} {OD : Ord D} {OH : Ord H} (hashed : nat * D -> H) (rounds : nat) (c : coll D) :
  (forall q d q' d', weight c d <> 0 -> weight c d' <> 0 -> d <> d' -> hashed (q, d) <> hashed (q', d')) ->
  forall d i, weight (identifiers hashed rounds c) (d, i) = if eqb (hashed (0%nat, d)) i then weight c d else 0.
Proof.
  intros HB d i. assert (S0 : settled hashed c 0).
  { destruct (settles hashed c 0 (map fst c)) as (r & H1 & H2).
    - intros e W. destruct (in_dec eq_dec e (map fst c)) as [|N]; [auto|]. exfalso. apply W. exact (weight_notin c e N).
    - intros q e q' e' W W' Hne _. apply HB; auto.
    - assert (r = 0%nat) by lia. subst r. exact H2. }
  rewrite (c53_stays hashed 0 rounds c S0 ltac:(lia) (d, i)). rewrite w_identifiers. reflexivity.
Qed.
Print Assumptions c53_no_collisions.

(** A hash that always collides leaves the loop running forever: the number of rounds is not bounded for every function. *)
Theorem c53_every_hash_refuted : ~ (forall (hashed : nat * nat -> nat) (c : coll nat), exists rounds, same_weights (id_diff hashed (S rounds) c) (id_diff hashed rounds c)).
Proof.
  intros HA. destruct (HA (fun _ => 0%nat) [(1%nat, 1); (2%nat, 1)]) as (r & HS). destruct (c53_identifiers (fun _ : nat * nat => 0%nat) r [(1%nat, 1); (2%nat, 1)]) as [(id & HI) HU].
  specialize (HU HS). assert (I0 : forall d, id d = 0%nat \/ id d <> 0%nat) by (intros d; lia).
  assert (W : forall d, weight [(1%nat, 1); (2%nat, 1)] d <> 0 -> weight (identifiers (fun _ : nat * nat => 0%nat) r [(1%nat, 1); (2%nat, 1)]) (d, 0%nat) <> 0).
  { intros d Hd. rewrite w_identifiers. rewrite eqb_refl. auto. }
  assert (E0 : 1%nat = 2%nat) by (apply (HU 1%nat 2%nat 0%nat); apply W; vm_compute; discriminate). discriminate.
Qed.
Print Assumptions c53_every_hash_refuted.

(** A run with collisions: hashes modulo ten, and 3, 13 and 23 each present; the counts are kept. *)
Definition weak (x : nat * nat) : nat := (snd x + 4 * fst x) mod 10.
Definition records : coll nat := [(3%nat, 1); (13%nat, 2); (23%nat, 1); (5%nat, 1)].
Example c53_runs : consolidate (identifiers weak 4 records) = [((3, 3)%nat, 1); ((5, 5)%nat, 1); ((13, 7)%nat, 2); ((23, 1)%nat, 1)].
Proof. vm_compute. reflexivity. Qed.
Example c53_settled : consolidate (id_diff weak 5 records) = consolidate (id_diff weak 4 records).
Proof. vm_compute. reflexivity. Qed.
Example c53_collides : consolidate (identifiers weak 0 records) = [((3, 3)%nat, 1); ((5, 5)%nat, 1); ((13, 3)%nat, 2); ((23, 3)%nat, 1)].
Proof. vm_compute. reflexivity. Qed.
(* a hash whose collisions end at round two *)
Definition fading (x : nat * nat) : nat := if (fst x <? 2)%nat then snd x mod 10 else 100 + 100 * fst x + snd x.
Example c53_stops_applies : forall q d q' d', weight records d <> 0 -> weight records d' <> 0 -> d <> d' -> (2 <= q)%nat -> fading (q, d) <> fading (q', d').
Proof.
  assert (L : forall d, weight records d <> 0 -> (d < 100)%nat).
  { intros d W. destruct (in_dec eq_dec d (map fst records)) as [Hin|N].
    - cbn in Hin. lia.
    - exfalso. apply W. exact (weight_notin records d N). }
  intros q d q' d' W W' Hne Hq. apply L in W. apply L in W'. unfold fading. cbn [fst snd]. destruct (Nat.ltb_spec q 2); [lia|]. destruct (Nat.ltb_spec q' 2).
  - pose proof (Nat.mod_upper_bound d' 10 ltac:(lia)). lia.
  - intros E0. assert (q = q') by lia. subst q'. lia.
Qed.
