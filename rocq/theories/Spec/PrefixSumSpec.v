(** What a prefix sum should be. *)
From Verif Require Export Spec.Collection Model.PrefixSumM.

Section PrefixSum.
Context {K D : Type} {OK : Ord K} {OD : Ord D}.
(** The collection holds, once, the value at each position of each key that has one, and nothing else. *)
Definition presents_values (c : coll (nat * K * D)) (value : nat -> K -> option D) : Prop :=
  forall i k d, weight c (i, k, d) = match value i k with Some d' => if eqb d' d then 1%Z else 0%Z | None => 0%Z end.
(** The combination, in position order, of [zero] and all the values at positions less than [n]. *)
Definition prefix (combine : K -> D -> D -> D) (value : nat -> K -> option D) (zero : D) (k : K) (n : nat) : D :=
  fold_left (fun sum i => match value i k with Some d => combine k sum d | None => sum end) (seq 0 n) zero.
Definition associative (combine : K -> D -> D -> D) : Prop := forall k a b c, combine k (combine k a b) c = combine k a (combine k b c).
End PrefixSum.
