(** * C23, C24, C25: reduce, and count, threshold and distinct, which are made with it *)
From Verif Require Import Spec.ReduceSpec Proofs.ReduceP Proofs.SpineInstP Proofs.SpineP Proofs.ReadableInstP Model.OrdNeuM Props.OrdNeuProps Proofs.LatticeP Base.Collections Base.Order.

Section Any.
Context {B1 M1 C1 B2 M2 C2 K V1 V2 T R1 R2 : Type} {OK : Ord K} {OV1 : Ord V1} {OV2 : Ord V2} {TT : Time T} {D1 : Diff R1} {D2 : Diff R2} {A2 : Abelian R2}
  (bops1 : BatchOps B1 M1 T) (contents1 : B1 -> list (K * V1 * T * R1)) (laws1 : BatchLaws (D:=K*V1) bops1 contents1)
  (bops2 : BatchOps B2 M2 T) (contents2 : B2 -> list (K * V2 * T * R2)) (laws2 : BatchLaws (D:=K*V2) bops2 contents2)
  (cops1 : CursorOps B1 C1 K V1 T R1) (new1 : C1) (cops2 : CursorOps B2 C2 K V2 T R2) (new2 : C2)
  (build : list (list (K * V2 * T * R2)) -> Description T -> B2).

(** What is needed of the implementations of batches and of the builder. *)
Definition implements : Prop :=
  readable bops1 contents1 laws1 cops1 new1 /\ readable bops2 contents2 laws2 cops2 new2 /\
  builds (D:=K*V2) bops2 contents2 laws2 (fun chain => consolidated (A:=K*V2*T) (concat chain)) build.
(** the operator works with the tactic that reads batches with cursors, which has nothing left to do at first *)
Definition tactic (logic : K -> list (V1 * R1) -> list (V2 * R2) -> list (V2 * R2)) : tactic_of B1 B2 (list (K * T)) T := retire logic bops1 bops2 cops1 new1 cops2 new2 build.
Definition reaches logic := rreaches bops1 contents1 laws1 bops2 (tactic logic) [].
Local Definition contract logic (F : K -> list (V1 * R1) -> V2 -> R2) (H : implements) (HF : reduces logic F) : retires F bops1 contents1 laws1 bops2 contents2 laws2 (tactic logic) strictly_sorted (fun p k t => In (k, t) p) :=
  retire_retires logic F HF bops1 contents1 laws1 bops2 contents2 laws2 cops1 new1 cops2 new2 (proj1 H) (proj1 (proj2 H)) build (proj2 (proj2 H)).
Local Lemma sorted0 : strictly_sorted (@nil (K * T)). Proof. constructor. Qed.
Local Definition none0 (k : K) (t : T) : ~ In (k, t) [] := fun x => x.

(** ** C23
    In full, the property would have no [linear_past t]; that is refuted below.  With it: at every time
    that the input is done with, and whose past is totally ordered, the accumulated output of each key is
    the function of its accumulated input, whatever the schedule, and whatever was compacted.  In
    particular this is so at all times if times are totally ordered. *)
Theorem c23_reduce_linear_past_partial : implements ->
  forall logic (F : K -> list (V1 * R1) -> V2 -> R2), reduces logic F ->
  forall e handle w, reaches logic e handle w ->
  forall k t, ~ beyond (sd_front (rw_in w)) t -> linear_past t ->
  forall input, consolidated input -> (forall a, weight input a = acc (flat_map contents1 (sd_hist (rw_in w))) (k, a) t) ->
  forall v, acc (flat_map contents2 (map fst (rw_log w))) (k, v) t = F k input v.
Proof.
  intros HI logic F HF e handle w HW k t Ht HL i Ci Wi v.
  exact (reduce_ok F bops1 contents1 laws1 bops2 contents2 laws2 _ _ _ (contract logic F HI HF) [] sorted0 none0 e handle w HW k t i HL Ht Ci Wi v).
Qed.
Theorem c23_reduce_total_order_partial : forall TO : TotalTime T, implements ->
  forall logic (F : K -> list (V1 * R1) -> V2 -> R2), reduces logic F ->
  forall e handle w, reaches logic e handle w ->
  forall k t, ~ beyond (sd_front (rw_in w)) t ->
  forall input, consolidated input -> (forall a, weight input a = acc (flat_map contents1 (sd_hist (rw_in w))) (k, a) t) ->
  forall v, acc (flat_map contents2 (map fst (rw_log w))) (k, v) t = F k input v.
Proof.
  intros TO HI logic F HF e handle w HW k t Ht. eapply c23_reduce_linear_past_partial; eauto. intros x y _ _. apply tle_total.
Qed.
(** The same, of what any handle reads from the output trace, at times within its reach. *)
Theorem c23_reduce_reads_partial : implements ->
  forall logic (F : K -> list (V1 * R1) -> V2 -> R2), reduces logic F ->
  forall e handle w, reaches logic e handle w ->
  forall a, In a (live (rw_trace w)) -> exists bx, w_box (rw_trace w) = Some bx /\
  forall k t, beyond (ag_logical a) t -> ~ beyond (sd_front (rw_in w)) t -> linear_past t ->
  forall input, consolidated input -> (forall x, weight input x = acc (flat_map contents1 (sd_hist (rw_in w))) (k, x) t) ->
  forall v, acc (flat_map contents2 (map_batches (bx_trace bx))) (k, v) t = F k input v.
Proof.
  intros HI logic F HF e handle w HW a Ha.
  destruct (rreaches_inv F bops1 contents1 laws1 bops2 contents2 laws2 _ _ _ (contract logic F HI HF) [] sorted0 none0 e handle w HW) as (accd & rest & I).
  pose proof (wi_box _ _ _ _ _ (rv_trace _ _ _ _ _ _ _ _ _ _ _ _ I)) as Hb.
  destruct (w_box (rw_trace w)) as [bx|]; [|rewrite Hb in Ha; destruct Ha]. destruct Hb as [[X1 X2 (n & HS)] _]. exists bx. split; auto. intros k t Ht Hn HL i Ci Wi v.
  rewrite (cov_same _ _ _ _ _ _ (Sinv_cov _ _ _ _ _ _ _ _ _ HS) (k, v) t).
  2:{ apply (si_logical _ _ _ _ _ _ _ _ _ HS), (holds_frontier _ _ X1 t). exists (ag_logical a). split; auto. apply in_map; auto. }
  exact (c23_reduce_linear_past_partial HI logic F HF e handle w HW k t Hn HL i Ci Wi v).
Qed.
(** reduce_abelian meets what is asked of the logic, for every function of the user. *)
Theorem c23_reduce_abelian : forall f : K -> list (V1 * R1) -> list (V2 * R2),
  reduces (abelian_logic f) (fun k input v => match input with [] => dzero | _ => weight (f k input) v end).
Proof. intros f. split; [reflexivity|]. intros k i o Ci Co H v. rewrite (proj2 (abelian_reduces f) k i o Ci Co H v). destruct i; reflexivity. Qed.

(** ** C25
    The operator never panics, for any lattice of times: in particular it has a capability at or before
    every time it needs one for, and its output batches fit the output trace. *)
Theorem c25_reduce_never_fails : implements -> (forall e, exists w, r_trace bops2 e = Some w) /\
  forall logic (F : K -> list (V1 * R1) -> V2 -> R2), reduces logic F ->
  forall e handle w, reaches logic e handle w ->
  forall msgs frontier s' answer, delivers contents1 (rw_in w) msgs frontier s' -> timely bops1 contents1 msgs s' ->
  exists result, r_activate bops1 bops2 (tactic logic) (sd_spine (rw_in w)) msgs frontier answer (rw_op w) (rw_trace w) = Some result.
Proof.
  intros HI. split; [apply (trace_starts bops2 contents2 laws2)|]. intros logic F HF e handle w HW msgs fr s' answer HD HT.
  exact (reduce_runs F bops1 contents1 laws1 bops2 contents2 laws2 _ _ _ (contract logic F HI HF) [] sorted0 none0 e handle w msgs fr s' answer HW HD HT).
Qed.
(** The batches made abut, from the minimum to the upper of the output trace, which is not behind what the
    input is done with; updates are in the intervals of their batches; a batch is sent at a time at or
    before all of its updates, and those not sent are empty; the times retained for later are at or beyond
    the capabilities retained, which are at or beyond the upper of the output. *)
Theorem c25_reduce_batches : implements ->
  forall logic (F : K -> list (V1 * R1) -> V2 -> R2), reduces logic F ->
  forall e handle w, reaches logic e handle w ->
  exists up, tiles bops2 [tmin] (map fst (rw_log w)) up /\ w_writer (rw_trace w) = Some up /\ (forall t, beyond up t -> beyond (sd_front (rw_in w)) t) /\
    Forall (within bops2 contents2) (map fst (rw_log w)) /\
    rw_out w = flat_map (fun x => match snd x with Some time => [(time, fst x)] | None => [] end) (rw_log w) /\
    Forall (fun x => match snd x with Some time => beyond (lower_of bops2 (fst x)) time /\ Forall (fun u => tle time (snd (fst u)) = true) (contents2 (fst x)) | None => contents2 (fst x) = [] end) (rw_log w) /\
    (forall k p, In (k, p) (rs_pending (rw_op w)) -> beyond (rs_caps (rw_op w)) p) /\ Forall (beyond up) (rs_caps (rw_op w)).
Proof.
  intros HI logic F HF e handle w HW.
  destruct (rreaches_inv F bops1 contents1 laws1 bops2 contents2 laws2 _ _ _ (contract logic F HI HF) [] sorted0 none0 e handle w HW) as (accd & rest & I).
  destruct (reduce_tiles F bops1 contents1 laws1 bops2 contents2 laws2 _ _ _ (contract logic F HI HF) [] sorted0 none0 e handle w HW) as (up & T1 & T2 & T3 & T4 & T5).
  exists up. split; [auto|split; [auto|split; [auto|split; [|split; [|split; [|split]]]]]].
  - apply Forall_map. eapply Forall_impl; [|exact T4]. intros x [H _]. exact H.
  - rewrite T5. reflexivity.
  - eapply Forall_impl; [|exact T4]. intros x [_ H]. exact H.
  - intros k p Hp. apply (rv_pending _ _ _ _ _ _ _ _ _ _ _ _ I k p Hp).
  - destruct (rv_caps _ _ _ _ _ _ _ _ _ _ _ _ I) as [_ H]. destruct (rv_writer _ _ _ _ _ _ _ _ _ _ _ _ I) as (up' & E & Su). assert (up' = up) by congruence. subst up'. eapply Forall_impl; [|exact H]. intros t. apply Su.
Qed.

(** Capabilities are held for work only: if messages are sent promptly, then every capability held is at a time with a kept time at or after it; when nothing is kept, none is held. *)
Theorem c25_reduce_capabilities : implements ->
  forall logic (F : K -> list (V1 * R1) -> V2 -> R2), reduces logic F ->
  forall e handle w, rprompt bops1 contents1 laws1 bops2 (tactic logic) [] e handle w ->
  Forall (fun c => exists k p, In (k, p) (rs_pending (rw_op w)) /\ tle c p = true) (rs_caps (rw_op w)).
Proof.
  intros HI logic F HF e handle w HW. exact (proj2 (prompt_needed F bops1 contents1 laws1 bops2 contents2 laws2 _ _ _ (contract logic F HI HF) [] sorted0 none0 e handle w HW)).
Qed.

(** ** C24
    One round of the work, over an interval from [lower] to [upper], for any lattice of times.  Suppose that,
    at all times of the interval with no pending time at or before them, and at all times beyond the interval
    with a totally ordered past and no such pending time, the output was the function of the input before the new
    updates.  Then after the round the output is right at *all* times of the interval, pending times or not; so
    every time of the interval at which the output has to change was visited.  And it is right at the times
    beyond the interval with a totally ordered past that have no pending time at or before them; so all
    such times were kept, and they are covered by the capabilities retained.
    Missing for the full property: times beyond the interval with a past that is not totally ordered,
    for which it is refuted below. *)
Theorem c24_reduce_round_partial : implements ->
  forall logic (F : K -> list (V1 * R1) -> V2 -> R2), reduces logic F ->
  forall (source : list B1) (output : list B2) (input : list B1) (lower upper held : list T) (pending : list (K * T)),
  Forall (bl_ok _ _ laws1) source -> Forall (bl_ok _ _ laws2) output -> Forall (bl_ok _ _ laws1) input ->
  strictly_sorted pending -> antichain lower -> antichain upper -> antichain held -> (forall t, beyond upper t -> beyond lower t) -> Forall (beyond lower) held ->
  (forall k p, In (k, p) pending -> beyond held p) ->
  Forall (fun u => beyond held (snd (fst u)) /\ ~ beyond upper (snd (fst u))) (flat_map contents1 input) ->
  let right k t ins outs := forall i, consolidated i -> (forall a, weight i a = acc (flat_map contents1 ins) (k, a) t) -> forall v, acc (flat_map contents2 outs) (k, v) t = F k i v in
  let visible t := ~ beyond upper t \/ linear_past t in
  (forall k t, beyond lower t -> visible t -> (forall p, In (k, p) pending -> tle p t = false) -> right k t source output) ->
  exists produced frontier next, retire logic bops1 bops2 cops1 new1 cops2 new2 build source output input lower upper held pending = Some (produced, frontier, next) /\
    (forall k t, beyond lower t -> ~ beyond upper t -> right k t (source ++ input) (output ++ map snd produced)) /\
    (forall k t, beyond lower t -> linear_past t -> (forall p, In (k, p) next -> tle p t = false) -> right k t (source ++ input) (output ++ map snd produced)) /\
    (forall k p, In (k, p) next -> beyond upper p /\ beyond frontier p) /\ Forall (beyond held) frontier.
Proof.
  intros (H1 & H2 & H3) logic F HF source output input lower upper held pending G1 G2 G3 G4 G5 G6 G7 G8 G9 G10 G11 right visible Hb.
  assert (Hr : forall k t ins outs, right k t ins outs <-> right_at F contents1 contents2 ins outs k t).
  { intros k t ins outs. split.
    - intros H v. unfold FA. rewrite acc_of_key. symmetry. apply H; [apply consolidate_consolidated|]. intros a. rewrite consolidate_weight, weight_values_at. apply acc_of_key.
    - intros H i Ci Wi v. rewrite <- acc_of_key, <- (H v). apply FA_ok; auto. intros a. rewrite acc_of_key. apply Wi. }
  destruct HF as [F_nil logic_ok].
  destruct (retire_ok logic F F_nil logic_ok bops1 contents1 laws1 bops2 contents2 laws2 cops1 new1 cops2 new2 H1 H2 build H3 (fun _ t => visible t)) with
      (source := source) (output := output) (input := input) (lower := lower) (upper := upper) (held := held) (pending := pending) as (produced & frontier & next & up & Ert & Q1 & Q2 & Q3 & Q4 & Q5 & Q6 & Q7 & Q8 & Q9); auto.
  - intros k r t L [H|H]; [left; intros Hr'; apply H; eapply beyond_mono; eauto|right]. intros x y Hx Hy. apply H; eapply tle_trans; eauto.
  - intros k t x y [H|Ot] Bx Lx Ly Lyx; [destruct H; eapply beyond_mono; [exact Lx|exact Bx]|]. destruct (Ot y x Ly Lx) as [H|H]; auto. apply tle_le in H. rewrite (le_antisym y x); auto. apply tle_refl.
  - intros k t Ot Bt Hp. apply Hr. apply Hb; auto.
  - exists produced, frontier, next. split; [exact Ert|]. split; [|split; [|split]].
    + intros k t Bt Nt. apply Hr. intros v. apply Q9; [left; auto|auto|]. intros p Hp. destruct (tle p t) eqn:E; auto. destruct Nt. eapply beyond_mono; [exact E|]. apply (Q7 k p Hp).
    + intros k t Bt Lt Hp. apply Hr. intros v. apply Q9; auto. right; auto.
    + intros k p Hp. destruct (Q7 k p Hp). auto.
    + eapply Forall_impl; [|exact Q6]. cbv beta. tauto.
Qed.
End Any.
Print Assumptions c23_reduce_linear_past_partial.
Print Assumptions c23_reduce_total_order_partial.
Print Assumptions c23_reduce_reads_partial.
Print Assumptions c23_reduce_abelian.
Print Assumptions c25_reduce_never_fails.
Print Assumptions c25_reduce_capabilities.
Print Assumptions c25_reduce_batches.
Print Assumptions c24_reduce_round_partial.

(** ** count, threshold and distinct *)
Section Made.
Context {B1 M1 C1 B2 M2 C2 K T R R2 : Type} {OK : Ord K} {TT : Time T} {D1 : Diff R} {D2 : Diff R2} {A2 : Abelian R2}
  (bops1 : BatchOps B1 M1 T) (contents1 : B1 -> list (K * unit * T * R)) (laws1 : BatchLaws (D:=K*unit) bops1 contents1)
  (cops1 : CursorOps B1 C1 K unit T R) (new1 : C1).
Lemma c23_unit_input (us : list (K * unit * T * R)) k t : let a := acc us (k, tt) t in let i := if is_zero a then [] else [(tt, a)] in
  consolidated i /\ forall x, weight i x = acc us (k, x) t.
Proof.
  intros a i. assert (Hc : forall d, is_zero d = false -> consolidated [(tt, d) : unit * R]) by (intros d Hd; split; [repeat constructor|constructor; [exact Hd|constructor]]).
  unfold i. destruct (is_zero a) eqn:Ez.
  - split; [split; constructor|]. intros []. apply is_zero_spec in Ez. fold a. rewrite Ez. reflexivity.
  - split; [apply Hc; auto|]. intros []. cbn. fold a. apply dplus_0_r.
Qed.

(** count: each key, with its accumulation if that is not zero, once; and nothing else. *)
Theorem c23_count_partial : forall (OR : Ord R) (bops2 : BatchOps B2 M2 T) (contents2 : B2 -> list (K * R * T * R2)) (laws2 : BatchLaws (D:=K*R) bops2 contents2)
  (cops2 : CursorOps B2 C2 K R T R2) (new2 : C2) (build : list (list (K * R * T * R2)) -> Description T -> B2),
  implements bops1 contents1 laws1 bops2 contents2 laws2 cops1 new1 cops2 new2 build ->
  forall (one : R2) e handle w, reaches bops1 contents1 laws1 bops2 cops1 new1 cops2 new2 build (abelian_logic (count_logic one)) e handle w ->
  forall k t, ~ beyond (sd_front (rw_in w)) t -> linear_past t -> forall c,
  acc (flat_map contents2 (map fst (rw_log w))) (k, c) t =
    (let a := acc (flat_map contents1 (sd_hist (rw_in w))) (k, tt) t in if negb (is_zero a) && eqb a c then one else dzero).
Proof.
  intros OR bops2 contents2 laws2 cops2 new2 build HI one e handle w HW k t Ht HL c. cbv zeta. destruct (c23_unit_input (flat_map contents1 (sd_hist (rw_in w))) k t) as [Ci Wi].
  rewrite (c23_reduce_linear_past_partial bops1 contents1 laws1 bops2 contents2 laws2 cops1 new1 cops2 new2 build HI _ _ (c23_reduce_abelian (count_logic one)) e handle w HW k t Ht HL _ Ci Wi c).
  destruct (is_zero (acc (flat_map contents1 (sd_hist (rw_in w))) (k, tt) t)); cbn; [auto|]. destruct (eqb _ c); [apply dplus_0_r|reflexivity].
Qed.
(** threshold: each key that has not accumulated to zero, as often as the function says. *)
Theorem c23_threshold_partial : forall (bops2 : BatchOps B2 M2 T) (contents2 : B2 -> list (K * unit * T * R2)) (laws2 : BatchLaws (D:=K*unit) bops2 contents2)
  (cops2 : CursorOps B2 C2 K unit T R2) (new2 : C2) (build : list (list (K * unit * T * R2)) -> Description T -> B2),
  implements bops1 contents1 laws1 bops2 contents2 laws2 cops1 new1 cops2 new2 build ->
  forall (thresh : K -> R -> R2) e handle w, reaches bops1 contents1 laws1 bops2 cops1 new1 cops2 new2 build (abelian_logic (threshold_logic thresh)) e handle w ->
  forall k t, ~ beyond (sd_front (rw_in w)) t -> linear_past t ->
  acc (flat_map contents2 (map fst (rw_log w))) (k, tt) t =
    (let a := acc (flat_map contents1 (sd_hist (rw_in w))) (k, tt) t in if is_zero a then dzero else thresh k a).
Proof.
  intros bops2 contents2 laws2 cops2 new2 build HI thresh e handle w HW k t Ht HL. cbv zeta. destruct (c23_unit_input (flat_map contents1 (sd_hist (rw_in w))) k t) as [Ci Wi].
  rewrite (c23_reduce_linear_past_partial bops1 contents1 laws1 bops2 contents2 laws2 cops1 new1 cops2 new2 build HI _ _ (c23_reduce_abelian (threshold_logic thresh)) e handle w HW k t Ht HL _ Ci Wi tt).
  destruct (is_zero (acc (flat_map contents1 (sd_hist (rw_in w))) (k, tt) t)); cbn; [auto|]. apply dplus_0_r.
Qed.
(** distinct: each key that has not accumulated to zero, once. *)
Theorem c23_distinct_partial : forall (bops2 : BatchOps B2 M2 T) (contents2 : B2 -> list (K * unit * T * R2)) (laws2 : BatchLaws (D:=K*unit) bops2 contents2)
  (cops2 : CursorOps B2 C2 K unit T R2) (new2 : C2) (build : list (list (K * unit * T * R2)) -> Description T -> B2),
  implements bops1 contents1 laws1 bops2 contents2 laws2 cops1 new1 cops2 new2 build ->
  forall (one : R2) e handle w, reaches bops1 contents1 laws1 bops2 cops1 new1 cops2 new2 build (abelian_logic (distinct_logic one)) e handle w ->
  forall k t, ~ beyond (sd_front (rw_in w)) t -> linear_past t ->
  acc (flat_map contents2 (map fst (rw_log w))) (k, tt) t = if is_zero (acc (flat_map contents1 (sd_hist (rw_in w))) (k, tt) t) then dzero else one.
Proof.
  intros bops2 contents2 laws2 cops2 new2 build HI one e handle w HW k t Ht HL.
  exact (c23_threshold_partial bops2 contents2 laws2 cops2 new2 build HI (fun _ _ => one) e handle w HW k t Ht HL).
Qed.
End Made.
Print Assumptions c23_count_partial.
Print Assumptions c23_threshold_partial.
Print Assumptions c23_distinct_partial.

