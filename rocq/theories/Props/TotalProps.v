(** * C26, C27: count_total and threshold_total, for totally ordered times, over every run of the operator *)
From Verif Require Import Spec.TotalSpec Proofs.TotalP Proofs.ReadableInstP Base.Arrays Model.OrdNeuM Proofs.LatticeP Proofs.DescriptionP Props.OrdNeuProps Props.SpineProps.

Section Any.
Context {B M C K T R R2 : Type} {OK : Ord K} {TT : Time T} {TO : TotalTime T} {DR : Diff R} {OR : Ord R} {D2 : Diff R2}
  (ops : BatchOps B M T) (contents : B -> list (K * unit * T * R)) (laws : BatchLaws (D:=K*unit) ops contents)
  (cops : CursorOps B C K unit T R) (new : C).

(** At every time the input is done with, the output of count_total holds each key, paired with its
    accumulation if that is not zero, exactly once; and nothing else. *)
Theorem c26_count_total : forall (neg pos : R2), dplus neg pos = dzero -> readable ops contents laws cops new ->
  forall handle w, treaches ops contents laws cops new (emit_count neg pos) handle w ->
  forall t, ~ beyond (sd_front (tw_in w)) t -> forall k c,
  acc (t_produced w) (k, c) t =
    (let a := acc (flat_map contents (sd_hist (tw_in w))) (k, tt) t in
     if negb (is_zero a) && eqb a c then pos else dzero).
Proof.
  intros neg pos Hnp HR handle w HW t Ht k c.
  exact (total_ok ops contents laws cops new (emit_count neg pos) fst _ HR (count_emits neg pos Hnp) handle w HW (k, c) t Ht).
Qed.

(** Activating the operator never panics, and it ships updates at a time it may use, at or before theirs. *)
Theorem c26_count_total_runs : forall (neg pos : R2), dplus neg pos = dzero -> readable ops contents laws cops new ->
  forall handle w, treaches ops contents laws cops new (emit_count neg pos) handle w ->
  forall msgs F s', delivers contents (tw_in w) msgs F s' -> prompt ops contents msgs s' ->
  exists st' outs, t_activate ops cops new (emit_count neg pos) (sd_spine (tw_in w)) msgs (tw_op w) = Some (st', outs) /\
    Forall (fun o => beyond (sd_front (tw_in w)) (fst o) /\ Forall (fun u => tle (fst o) (snd (fst u)) = true) (snd o)) outs.
Proof.
  intros neg pos Hnp HR handle w HW msgs F s' Hd Hp.
  destruct (activate_ok ops contents laws cops new (emit_count neg pos) fst _ HR (count_emits neg pos Hnp) w msgs F s'
    (treaches_inv ops contents laws cops new (emit_count neg pos) fst _ HR (count_emits neg pos Hnp) handle w HW) Hd Hp) as (st' & outs & E & _ & HF). eauto.
Qed.

(** threshold_semigroup, when what the user's function returns are the changes of some [f], which is zero
    for an absent key, has each key [f] of its accumulation times. *)
Theorem c27_threshold_semigroup : forall (thresh : K -> R -> option R -> option R2) (f : K -> R -> R2),
  (forall k, f k dzero = dzero) ->
  (forall k new, match thresh k new None with Some d => d | None => dzero end = f k new) ->
  (forall k new old, dplus (match thresh k new (Some old) with Some d => d | None => dzero end) (f k old) = f k new) ->
  readable ops contents laws cops new ->
  forall handle w, treaches ops contents laws cops new (emit_threshold thresh) handle w ->
  forall t, ~ beyond (sd_front (tw_in w)) t -> forall k,
  acc (t_produced w) k t = f k (acc (flat_map contents (sd_hist (tw_in w))) (k, tt) t).
Proof.
  intros thresh f H0 H1 H2 HR handle w HW t Ht k.
  exact (total_ok ops contents laws cops new (emit_threshold thresh) (fun k => k) f HR (threshold_emits thresh f H0 H1 H2) handle w HW k t Ht).
Qed.

(** threshold_total, for a function that is zero for an absent key. *)
Theorem c27_threshold_total : forall (AB : Abelian R2) (f : K -> R -> R2), (forall k, f k dzero = dzero) -> readable ops contents laws cops new ->
  forall handle w, treaches ops contents laws cops new (emit_threshold (threshold_total f)) handle w ->
  forall t, ~ beyond (sd_front (tw_in w)) t -> forall k,
  acc (t_produced w) k t = f k (acc (flat_map contents (sd_hist (tw_in w))) (k, tt) t).
Proof.
  intros AB f H0. apply c27_threshold_semigroup; auto.
  - intros k n. unfold threshold_total. destruct (is_zero (f k n)) eqn:Ez; auto. apply is_zero_spec in Ez. auto.
  - intros k n old. unfold threshold_total.
    assert (E : dplus (dplus (f k n) (dneg (f k old))) (f k old) = f k n) by (rewrite dplus_assoc, dneg_l, dplus_0_r; auto).
    destruct (is_zero (dplus (f k n) (dneg (f k old)))) eqn:Ez; auto. apply is_zero_spec in Ez. rewrite Ez in E. exact E.
Qed.
Theorem c27_threshold_total_runs : forall (AB : Abelian R2) (f : K -> R -> R2), (forall k, f k dzero = dzero) -> readable ops contents laws cops new ->
  forall handle w, treaches ops contents laws cops new (emit_threshold (threshold_total f)) handle w ->
  forall msgs F s', delivers contents (tw_in w) msgs F s' -> prompt ops contents msgs s' ->
  exists st' outs, t_activate ops cops new (emit_threshold (threshold_total f)) (sd_spine (tw_in w)) msgs (tw_op w) = Some (st', outs) /\
    Forall (fun o => beyond (sd_front (tw_in w)) (fst o) /\ Forall (fun u => tle (fst o) (snd (fst u)) = true) (snd o)) outs.
Proof.
  intros AB f H0 HR handle w HW msgs F s' Hd Hp.
  assert (HE : emits_ok (T:=T) (emit_threshold (threshold_total f)) (fun k => k) f).
  { apply threshold_emits; auto.
    - intros k n. unfold threshold_total. destruct (is_zero (f k n)) eqn:Ez; auto. apply is_zero_spec in Ez. auto.
    - intros k n old. unfold threshold_total.
      assert (E : dplus (dplus (f k n) (dneg (f k old))) (f k old) = f k n) by (rewrite dplus_assoc, dneg_l, dplus_0_r; auto).
      destruct (is_zero (dplus (f k n) (dneg (f k old)))) eqn:Ez; auto. apply is_zero_spec in Ez. unfold cval. rewrite Ez in E. exact E. }
  destruct (activate_ok ops contents laws cops new _ (fun k => k) f HR HE w msgs F s' (treaches_inv ops contents laws cops new _ (fun k => k) f HR HE handle w HW) Hd Hp)
    as (st' & outs & E & _ & HF). eauto.
Qed.
End Any.
Print Assumptions c26_count_total.
Print Assumptions c26_count_total_runs.
Print Assumptions c27_threshold_semigroup.
Print Assumptions c27_threshold_total.
Print Assumptions c27_threshold_total_runs.

(** ** A concrete run: record 7 comes twice and leaves; record 8 comes twice; the trace is compacted between. *)
Definition c26_b (us : list (nat * unit * nat * Z)) (lo up : nat) := okb_seal [us] {| d_lower := [lo]; d_upper := [up]; d_since := [0] |}.
Definition c26_b1 := c26_b [((7, tt, 0), 2%Z); ((8, tt, 0), 1%Z)] 0 1.
Definition c26_b2 := c26_b [((7, tt, 1), (-2)%Z); ((8, tt, 2), 1%Z)] 1 3.
Lemma c26_b_proper us lo up : consolidated (A:=nat*unit*nat) us -> lo < up -> proper ok_batch_ops ok_contents ok_laws (c26_b us lo up).
Proof.
  intros HC Hl. assert (HL : lower_of ok_batch_ops (c26_b us lo up) = [lo])
    by (unfold lower_of, c26_b, okb_seal, okb_done; simpl; repeat match goal with |- context[let (_, _) := ?p in _] => destruct p end; reflexivity).
  assert (HU : upper_of ok_batch_ops (c26_b us lo up) = [up])
    by (unfold upper_of, c26_b, okb_seal, okb_done; simpl; repeat match goal with |- context[let (_, _) := ?p in _] => destruct p end; reflexivity).
  constructor; rewrite ?HL, ?HU.
  - apply (okB_built us); auto. apply app_nil_r.
  - constructor; [intros y []|constructor].
  - constructor; [intros y []|constructor].
  - discriminate.
  - intros t (f & [<-|[]] & Hf). exists lo. split; [left; auto|]. eapply tle_trans; [|exact Hf]. apply nat_tle; lia.
  - intros H. destruct (proj1 (H lo)) as (f & [<-|[]] & Hf).
    + exists lo. split; [left; auto|apply tle_refl].
    + apply nat_tle in Hf. lia.
Qed.
Definition c26_spine (ops : list (s_op (OrdKeyBatch nat nat Z) nat)) :=
  match s_run ok_batch_ops (with_effort 1) ops with Some s => s | None => with_effort 0 end.
Definition c26_s0 := c26_spine [].
Definition c26_s1 := c26_spine [SInsert c26_b1].
Definition c26_s2 := c26_spine [SInsert c26_b1; SSetLogical [1]; SInsert c26_b2].
Definition c26_side s h up L q F : side (OrdKeyBatch nat nat Z) (OrdKeyMerger nat nat Z) nat :=
  {| sd_spine := s; sd_hist := h; sd_upper := up; sd_logical := L; sd_physical := [0]; sd_flight := q; sd_front := F |}.
Definition c26_two {X} (emit : nat -> option Z -> nat -> Z -> list X) : option (tstate nat * list (nat * list X)) :=
  r1 <- t_activate ok_batch_ops ok_ops okc_new emit c26_s1 [(0, [c26_b1])] (t_start ([0], [0]));
  r2 <- t_activate ok_batch_ops ok_ops okc_new emit c26_s2 [(1, [c26_b2])] (fst r1);
  Some (fst r2, snd r1 ++ snd r2).

Lemma c26_reaches {X} (emit : nat -> option Z -> nat -> Z -> list X) st outs : c26_two emit = Some (st, outs) ->
  treaches ok_batch_ops ok_contents ok_laws ok_ops okc_new emit ([0], [0])
    {| tw_in := c26_side c26_s2 [c26_b1; c26_b2] [3] [1] [] [3]; tw_op := st; tw_out := outs |}.
Proof.
  intros E. unfold c26_two in E.
  assert (HB : forall (a b t : nat), a <= b -> beyond [b] t -> beyond [a] t).
  { intros a b t Hab (f & [<-|[]] & Hf). exists a. split; [left; auto|]. eapply tle_trans; [|exact Hf]. apply nat_tle; auto. }
  destruct (t_activate ok_batch_ops ok_ops okc_new emit c26_s1 _ _) as [[st1 outs1]|] eqn:E1; [|discriminate]. cbn [fst snd] in E.
  destruct (t_activate ok_batch_ops ok_ops okc_new emit c26_s2 _ _) as [[st2 outs2]|] eqn:E2; [|discriminate]. cbn [fst snd] in E. inversion E; subst st outs. clear E.
  assert (Hh : ts_handle st1 = ([1], [1])).
  { unfold t_activate in E1. destruct (cursor_list ok_ops okc_new _) as [?|]; [|discriminate]. destruct (batches_through _ _ _) as [?|]; [|discriminate].
    destruct (cursor_list ok_ops okc_new _) as [?|]; [|discriminate]. destruct (total_keys _ _ _ _ _ _ _) as [?|]; [|discriminate]. inversion E1; subst. vm_compute. reflexivity. }
  assert (I1 : in_interval ok_batch_ops ok_contents c26_b1).
  { repeat constructor; simpl; try (exists 0; split; [left; reflexivity|reflexivity]); intros (f & [<-|[]] & Hf); discriminate Hf. }
  assert (I2 : in_interval ok_batch_ops ok_contents c26_b2).
  { repeat constructor; simpl; try (exists 1; split; [left; reflexivity|reflexivity]); intros (f & [<-|[]] & Hf); discriminate Hf. }
  assert (F1 : Forall (in_interval ok_batch_ops ok_contents) [c26_b1]) by (constructor; [exact I1|constructor]).
  assert (F2 : Forall (in_interval ok_batch_ops ok_contents) [c26_b1; c26_b2]) by (constructor; [exact I1|constructor; [exact I2|constructor]]).
  assert (P1 : proper ok_batch_ops ok_contents ok_laws c26_b1) by (apply c26_b_proper; [split; simpl; repeat constructor|lia]).
  assert (P2 : proper ok_batch_ops ok_contents ok_laws c26_b2) by (apply c26_b_proper; [split; simpl; repeat constructor|lia]).
  eapply tr_step; [|eapply (tw_activate _ _ _ _ _ _ (c26_side c26_s2 [c26_b1; c26_b2] [3] [1] [c26_b2] [1])); [| |exact E2]].
  2:{ exists []. split; [reflexivity|]. split; [reflexivity|]. split; [|split; [intros t; apply HB; lia|constructor]].
      constructor; [|constructor]. split; [exists 1; split; [left; reflexivity|reflexivity]|]. constructor; [|constructor]. vm_compute. repeat constructor. }
  2:{ split; [|constructor]. constructor; [|constructor]. split; [discriminate|]. constructor; [|constructor]. simpl. intros (f & [<-|[]] & Hf); discriminate Hf. }
  eapply (tr_step _ _ _ _ _ _ _ {| tw_in := c26_side (set_logical c26_s1 [1]) [c26_b1] [1] [1] [] [1]; tw_op := st1; tw_out := outs1 |}).
  2:{ apply tw_env; [|first [exact F2|exact F1]]. rewrite Hh. change [3] with (upper_of ok_batch_ops c26_b2).
      apply (se_insert _ _ _ _ _ [c26_b1] [1] [1] [0] [] [1] c26_b2); [exact P2| | | |].
      - intros t; reflexivity.
      - intros t Ht. apply (HB 0 1 t); [lia|exact Ht].
      - vm_compute. repeat constructor; (exists 1; split; [left; reflexivity|reflexivity]).
      - vm_compute. reflexivity. }
  eapply (tr_step _ _ _ _ _ _ _ {| tw_in := c26_side c26_s1 [c26_b1] [1] [0] [] [1]; tw_op := st1; tw_out := outs1 |}).
  2:{ apply tw_env; [|first [exact F2|exact F1]]. rewrite Hh. apply (se_logical _ _ _ _ c26_s1 [c26_b1] [1] [0] [0] [] [1] [1]).
      - intros t; apply HB; lia.
      - split; auto. intros t; apply HB; lia. }
  eapply (tr_step _ _ _ _ _ _ _ {| tw_in := c26_side c26_s1 [c26_b1] [1] [0] [c26_b1] [0]; tw_op := t_start ([0], [0]); tw_out := [] |}).
  2:{ change outs1 with ([] ++ outs1). eapply tw_activate; [| |exact E1].
      - exists []. split; [reflexivity|]. split; [reflexivity|]. split; [|split; [intros t; apply HB; lia|constructor]].
        constructor; [|constructor]. split; [exists 0; split; [left; reflexivity|reflexivity]|]. constructor; [|constructor]. vm_compute. repeat constructor.
      - split; [|constructor]. constructor; [|constructor]. split; [discriminate|]. constructor; [|constructor]. simpl. intros (f & [<-|[]] & Hf); discriminate Hf. }
  eapply (tr_step _ _ _ _ _ _ _ {| tw_in := c26_side c26_s0 [] [0] [0] [] [0]; tw_op := t_start ([0], [0]); tw_out := [] |}).
  2:{ apply tw_env; [|first [exact F2|exact F1]]. change [1] with (upper_of ok_batch_ops c26_b1).
      apply (se_insert _ _ _ _ _ [] [0] [0] [0] [] [0] c26_b1); [exact P1| |intros t Ht; exact Ht| |].
      - intros t; reflexivity.
      - vm_compute. repeat constructor; (exists 0; split; [left; reflexivity|reflexivity]).
      - vm_compute. reflexivity. }
  apply tr_start. unfold tstarts. cbn [tw_in tw_op tw_out c26_side sd_hist sd_flight sd_logical sd_physical fst snd].
  split; [exists 1, []; split; [exact (sh_nil _ _ _)|split; [vm_compute; reflexivity|split; constructor]]|].
  split; [auto|]. split; [auto|]. split; [split; auto|]. split; [discriminate|]. split; [|auto]. intros t. exists 0. split; [left; auto|]. apply nat_tle; lia.
Qed.

Example c26_run : option_map snd (c26_two (emit_count (-1)%Z 1%Z)) =
  Some [(0, [((7, 2%Z), 0, 1%Z); ((8, 1%Z), 0, 1%Z)]); (1, [((7, 2%Z), 1, (-1)%Z); ((8, 1%Z), 2, (-1)%Z); ((8, 2%Z), 2, 1%Z)])].
Proof. vm_compute. reflexivity. Qed.
Example c27_run : option_map snd (c26_two (emit_threshold (threshold_total (fun _ c => Z.min c 1)))) =
  Some [(0, [(7, 0, 1%Z); (8, 0, 1%Z)]); (1, [(7, 1, (-1)%Z)])].
Proof. vm_compute. reflexivity. Qed.

(** ** distinct_total does not reflect that a record is gone
    In this run record 7 has accumulated to zero at time 1, but the output still holds it. *)
Theorem c46_distinct_total_refuted : exists w,
  treaches ok_batch_ops ok_contents ok_laws ok_ops okc_new (emit_threshold (distinct_total 1%Z)) ([0], [0]) w /\
  ~ beyond (sd_front (tw_in w)) 1 /\
  acc (flat_map ok_contents (sd_hist (tw_in w))) (7, tt) 1 = 0%Z /\
  acc (t_produced w) 7 1 = 1%Z.
Proof.
  destruct (c26_two (emit_threshold (distinct_total 1%Z))) as [[st outs]|] eqn:E; [|vm_compute in E; discriminate].
  exists {| tw_in := c26_side c26_s2 [c26_b1; c26_b2] [3] [1] [] [3]; tw_op := st; tw_out := outs |}. split; [apply c26_reaches; exact E|].
  split; [intros (f & [<-|[]] & Hf); discriminate Hf|]. split; [vm_compute; reflexivity|].
  vm_compute in E. inversion E. vm_compute. reflexivity.
Qed.
Print Assumptions c46_distinct_total_refuted.

(** As long as differences are such that their sums are not zero, so that no record ever leaves, the
    output of distinct_total holds each record whose accumulation is not zero exactly once, and no other.
    Missing: records that leave, for which the claim is false. *)
Section Positive.
Context {B M C K T R R2 : Type} {OK : Ord K} {TT : Time T} {TO : TotalTime T} {DR : Diff R} {OR : Ord R} {D2 : Diff R2}
  (ops : BatchOps B M T) (contents : B -> list (K * unit * T * R)) (laws : BatchLaws (D:=K*unit) ops contents)
  (cops : CursorOps B C K unit T R) (new : C).
Theorem c46_distinct_total_partial : forall (AB : Abelian R2) (one : R2) (P : R -> Prop),
  (forall a b, P a -> P b -> P (dplus a b)) -> (forall a, P a -> a <> dzero) -> readable ops contents laws cops new ->
  forall handle w, treaches_only ops contents laws cops new (emit_threshold (distinct_total one)) P handle w ->
  forall t, ~ beyond (sd_front (tw_in w)) t -> forall k,
  acc (t_produced w) k t = if is_zero (acc (flat_map contents (sd_hist (tw_in w))) (k, tt) t) then dzero else one.
Proof.
  intros AB one P HP HN HR handle w HW t Ht k. set (f := fun (_ : K) (r : R) => if is_zero r then dzero else one).
  assert (H0 : forall k, f k dzero = dzero) by (intros k'; unfold f; rewrite (proj2 (is_zero_spec (dzero : R)) eq_refl); auto).
  assert (HE : emits_ok (T:=T) (emit_threshold (threshold_total f)) (fun k => k) f).
  { apply threshold_emits; auto.
    - intros k' n. unfold threshold_total. destruct (is_zero (f k' n)) eqn:Ez; auto. apply is_zero_spec in Ez. auto.
    - intros k' n old. unfold threshold_total.
      assert (E : dplus (dplus (f k' n) (dneg (f k' old))) (f k' old) = f k' n) by (rewrite dplus_assoc, dneg_l, dplus_0_r; auto).
      destruct (is_zero (dplus (f k' n) (dneg (f k' old)))) eqn:Ez; auto. apply is_zero_spec in Ez. unfold cval. rewrite Ez in E. exact E. }
  assert (HF : forall k r, P r -> f k r = one).
  { intros k' r Hr. unfold f. destruct (is_zero r) eqn:Ez; auto. apply is_zero_spec in Ez. destruct (HN r Hr Ez). }
  destruct (treaches_agree ops contents laws cops new HR (emit_threshold (distinct_total one)) (emit_threshold (threshold_total f)) (fun k => k) f HE P HP) with (h := handle) (w := w) as [HW' _]; auto.
  - intros k' c t' r Hc Hr. unfold emit_threshold, distinct_total, threshold_total. destruct c as [c|]; rewrite ?HF; auto.
  - exact (c27_threshold_total ops contents laws cops new AB f H0 HR handle w HW' t Ht k).
Qed.
End Positive.
Print Assumptions c46_distinct_total_partial.

(** ** A concrete run with positive differences *)
Definition c46_b := c26_b [((7, tt, 0), 2%Z); ((7, tt, 1), 1%Z); ((8, tt, 1), 1%Z)] 0 2.
Definition c46_s := c26_spine [SInsert c46_b].
Example c46_run : exists st, let w := {| tw_in := c26_side c46_s [c46_b] [2] [0] [] [2]; tw_op := st; tw_out := [(0, [(7, 0, 1%Z); (8, 1, 1%Z)])] |} in
  treaches_only ok_batch_ops ok_contents ok_laws ok_ops okc_new (emit_threshold (distinct_total 1%Z)) (fun r => (0 < r)%Z) ([0], [0]) w.
Proof.
  assert (HB : forall (a b t : nat), a <= b -> beyond [b] t -> beyond [a] t).
  { intros a b t Hab (f & [<-|[]] & Hf). exists a. split; [left; auto|]. eapply tle_trans; [|exact Hf]. apply nat_tle; auto. }
  assert (I1 : in_interval ok_batch_ops ok_contents c46_b).
  { repeat constructor; simpl; try (exists 0; split; [left; reflexivity|reflexivity]); intros (f & [<-|[]] & Hf); discriminate Hf. }
  assert (P1 : proper ok_batch_ops ok_contents ok_laws c46_b) by (apply c26_b_proper; [split; simpl; repeat constructor|lia]).
  eexists. cbv zeta. eapply tro_step.
  - eapply tro_step; [eapply (tro_start _ _ _ _ _ _ _ _ {| tw_in := c26_side c26_s0 [] [0] [0] [] [0]; tw_op := t_start ([0], [0]); tw_out := [] |})|apply (tw_env _ _ _ _ _ _ _ (c26_side c46_s [c46_b] [2] [0] [c46_b] [0]))|].
    + unfold tstarts. cbn [tw_in tw_op tw_out c26_side sd_hist sd_flight sd_logical sd_physical fst snd].
      split; [exists 1, []; split; [exact (sh_nil _ _ _)|split; [vm_compute; reflexivity|split; constructor]]|].
      split; [auto|]. split; [auto|]. split; [split; auto|]. split; [discriminate|]. split; [|auto]. intros t. exists 0. split; [left; auto|]. apply nat_tle; lia.
    + vm_compute. constructor.
    + change [2] with (upper_of ok_batch_ops c46_b).
      apply (se_insert _ _ _ _ _ [] [0] [0] [0] [] [0] c46_b); [exact P1| |intros t Ht; exact Ht| |].
      * intros t; reflexivity.
      * vm_compute. repeat constructor; (exists 0; split; [left; reflexivity|reflexivity]).
      * vm_compute. reflexivity.
    + apply Forall_cons; [exact I1|apply Forall_nil].
    + vm_compute. repeat constructor.
  - change [(0, [(7, 0, 1%Z); (8, 1, 1%Z)])] with ([] ++ [(0, [(7, 0, 1%Z); (8, 1, 1%Z)])]). eapply tw_activate with (msgs := [(0, [c46_b])]).
    + exists []. split; [reflexivity|]. split; [reflexivity|]. split; [|split; [intros t; apply HB; lia|constructor]].
      constructor; [|constructor]. split; [exists 0; split; [left; reflexivity|reflexivity]|]. constructor; [|constructor]. vm_compute. repeat constructor.
    + split; [|constructor]. constructor; [|constructor]. split; [discriminate|]. constructor; [|constructor]. simpl. intros (f & [<-|[]] & Hf); discriminate Hf.
    + vm_compute. reflexivity.
  - vm_compute. repeat constructor.
Qed.
