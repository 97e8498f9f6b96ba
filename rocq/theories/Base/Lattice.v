(** Lattice-ordered times: what [Lattice + Timestamp + Ord] promises in Rust
    (differential-dataflow/src/lattice.rs:13-150, timely's [PartialOrder], [Timestamp]). *)
From Verif Require Export Base.Order.

Class Lattice (T : Type) := {
  tle : T -> T -> bool;                                  (* PartialOrder::less_equal *)
  join : T -> T -> T;                                    (* Lattice::join, least upper bound *)
  meet : T -> T -> T;                                    (* Lattice::meet, greatest lower bound *)
  tle_refl : forall x, tle x x = true;
  tle_trans : forall x y z, tle x y = true -> tle y z = true -> tle x z = true;
  tle_antisym : forall x y, tle x y = true -> tle y x = true -> x = y;
  join_ub_l : forall x y, tle x (join x y) = true;
  join_ub_r : forall x y, tle y (join x y) = true;
  join_lub : forall x y z, tle x z = true -> tle y z = true -> tle (join x y) z = true;
  meet_lb_l : forall x y, tle (meet x y) x = true;
  meet_lb_r : forall x y, tle (meet x y) y = true;
  meet_glb : forall x y z, tle z x = true -> tle z y = true -> tle z (meet x y) = true
}.

(** [Timestamp]: additionally a total order extending the partial one, and a least element. *)
Class Time (T : Type) := {
  time_ord :> Ord T;
  time_lattice :> Lattice T;
  tle_le : forall x y : T, tle x y = true -> le x y;     (* Ord is a linear extension of PartialOrder *)
  tmin : T;                                              (* Timestamp::minimum() *)
  tmin_le : forall x, tle tmin x = true
}.

(** [TotalOrder]: the partial order is total. *)
Class TotalTime (T : Type) {TT : Time T} := {
  tle_total : forall x y : T, tle x y = true \/ tle y x = true
}.

Section LatticeFacts.
Context {T : Type} {LT : Lattice T}.
Implicit Types x y z : T.

Lemma join_tle x y z : tle (join x y) z = true <-> tle x z = true /\ tle y z = true.
Proof.
  split.
  - intros H; split; (eapply tle_trans; [|exact H]); [apply join_ub_l | apply join_ub_r].
  - intros [H1 H2]; apply join_lub; assumption.
Qed.

Lemma join_tle_b x y z : tle (join x y) z = tle x z && tle y z.
Proof. apply eq_true_iff_eq. rewrite andb_true_iff. apply join_tle. Qed.

Lemma tle_meet x y z : tle z (meet x y) = true <-> tle z x = true /\ tle z y = true.
Proof.
  split.
  - intros H; split; (eapply tle_trans; [exact H|]); [apply meet_lb_l | apply meet_lb_r].
  - intros [H1 H2]; apply meet_glb; assumption.
Qed.

Lemma join_comm x y : join x y = join y x.
Proof. apply tle_antisym; apply join_lub; auto using join_ub_l, join_ub_r. Qed.

Lemma join_assoc x y z : join (join x y) z = join x (join y z).
Proof.
  apply tle_antisym; repeat rewrite join_tle; repeat split;
    eauto using join_ub_l, join_ub_r, tle_trans.
Qed.

Lemma join_idem x : join x x = x.
Proof. apply tle_antisym; [apply join_lub; apply tle_refl | apply join_ub_l]. Qed.

Lemma meet_comm x y : meet x y = meet y x.
Proof. apply tle_antisym; apply meet_glb; auto using meet_lb_l, meet_lb_r. Qed.

Lemma meet_assoc x y z : meet (meet x y) z = meet x (meet y z).
Proof.
  apply tle_antisym; repeat rewrite tle_meet; repeat split;
    eauto using meet_lb_l, meet_lb_r, tle_trans.
Qed.

Lemma meet_idem x : meet x x = x.
Proof. apply tle_antisym; [apply meet_lb_l | apply meet_glb; apply tle_refl]. Qed.

Lemma join_eq_l x y : tle y x = true <-> join x y = x.
Proof.
  split.
  - intros H; apply tle_antisym; [apply join_lub; [apply tle_refl|exact H] | apply join_ub_l].
  - intros <-; apply join_ub_r.
Qed.

Lemma join_eq_r x y : tle x y = true <-> join x y = y.
Proof. rewrite join_comm; apply join_eq_l. Qed.

Lemma meet_eq_l x y : tle x y = true <-> meet x y = x.
Proof.
  split.
  - intros H; apply tle_antisym; [apply meet_lb_l | apply meet_glb; [apply tle_refl|exact H]].
  - intros <-; apply meet_lb_r.
Qed.

Lemma join_mono x x' y y' : tle x x' = true -> tle y y' = true -> tle (join x y) (join x' y') = true.
Proof. intros; apply join_lub; eauto using join_ub_l, join_ub_r, tle_trans. Qed.

Lemma meet_mono x x' y y' : tle x x' = true -> tle y y' = true -> tle (meet x y) (meet x' y') = true.
Proof. intros; apply meet_glb; eauto using meet_lb_l, meet_lb_r, tle_trans. Qed.

(** The fact behind replay with progressive compaction: joining with a lower bound of [y] is invisible after joining with [y]. *)
Lemma join_absorb_lower x m y : tle m y = true -> join (join x m) y = join x y.
Proof.
  intros H; apply tle_antisym; repeat rewrite join_tle; repeat split;
    eauto using join_ub_l, join_ub_r, tle_trans.
Qed.

Lemma join_swap_inner a b c d : join (join a b) (join c d) = join (join a c) (join b d).
Proof.
  apply tle_antisym; repeat rewrite join_tle; repeat split;
    eauto 6 using join_ub_l, join_ub_r, tle_trans.
Qed.

End LatticeFacts.

(** timely's [PartialOrder::less_than]: [less_equal] and not equal. *)
Definition tlt {T} {LT : Lattice T} (x y : T) : bool := tle x y && negb (tle y x).

Section TimeFacts.
Context {T : Type} {TT : Time T}.

Lemma tlt_spec (x y : T) : tlt x y = true <-> tle x y = true /\ x <> y.
Proof.
  unfold tlt; rewrite andb_true_iff, negb_true_iff. split.
  - intros [H1 H2]; split; auto. intros ->. rewrite tle_refl in H2; discriminate.
  - intros [H1 H2]; split; auto. destruct (tle y x) eqn:E; auto. exfalso; apply H2, tle_antisym; auto.
Qed.

Lemma tlt_lt (x y : T) : tlt x y = true -> lt x y.
Proof.
  rewrite tlt_spec; intros [H1 H2]. apply tle_le, le_lteq in H1. destruct H1; auto. contradiction.
Qed.

Lemma lt_not_tle (x y : T) : lt x y -> tle y x = false.
Proof.
  intros H. destruct (tle y x) eqn:E; auto. apply tle_le in E. exfalso; apply not_le_lt in H; auto.
Qed.

Lemma total_tle_le {TO : TotalTime T} (x y : T) : tle x y = true <-> le x y.
Proof.
  split; [apply tle_le|]. intros H. destruct (tle_total x y) as [H'|H']; auto.
  apply tle_le in H'. rewrite (le_antisym _ _ H H'). apply tle_refl.
Qed.
End TimeFacts.
