(** C14, C15, C16, C17: the trace maintained by the spine.

    The theorems are for every batch type that meets [BatchLaws], every effort, and every history of
    insertions, closing, background work and compaction allowances ([s_history]); the batches of
    ord_neu.rs meet the laws. *)
From Verif Require Import Base.Collections Spec.BatchSpec Spec.BatchLaws Model.OrdNeuM
  Proofs.LatticeP Proofs.SpineP Proofs.SpineInstP Proofs.CursorListP Proofs.TrieP Props.OrdNeuProps Props.CursorListProps.

(** ** C17: no history makes the trace panic, and merging keeps pace: a batch at layer [k] has at most
    [2^k] updates ([2^(k+1)] when its merge has just finished), and the number of layers is at most
    logarithmic in the volume of updates inserted and work requested. *)
Definition volume {B M T} (ops : BatchOps B M T) (l : list (s_op B T)) : nat :=
  list_sum (map (fun op => match op with
    | SInsert b => Nat.max 1 (b_len ops b) | SClose => 1 | SExert (Some e) => Nat.max 1 e | _ => 0 end) l).

Lemma volume_load {B M T} (ops : BatchOps B M T) (l : list (s_op B T)) : sum (map (op_load ops) l) = 4 * volume ops l.
Proof.
  unfold volume. induction l as [|op l IH]; [reflexivity|]. cbn [map sum].
  change (list_sum (?x :: ?r)) with (x + list_sum r). rewrite IH. unfold op_load, load.
  rewrite Nat.mul_add_distr_l. f_equal. destruct op as [b| |[e|]| |]; lia.
Qed.

Theorem c17_trace_never_panics_and_keeps_pace : forall (B M D T R : Type) (OD : Ord D) (TT : Time T) (DR : Diff R)
  (ops : BatchOps B M T) (contents : B -> list (D * T * R)) (laws : BatchLaws ops contents) e l h up L P,
  s_history ops contents laws l h up L P ->
  exists s, s_run ops (with_effort e) l = Some s /\
    (forall k x, nth_error (merging s) k = Some x -> layer_sized ops k x) /\
    (merging s = [] \/ 2 ^ (length (merging s) - 1) <= 4 * volume ops l).
Proof.
  intros B M D T R OD TT DR ops contents laws e l h up L P H.
  destruct (history_runs ops contents laws e _ _ _ _ _ H) as (s & E & HS). exists s. split; auto. split.
  - intros k x Hk. exact (winv_sized ops contents laws _ _ _ 0 0 (si_layers _ _ _ _ _ _ _ _ _ HS) k x Hk).
  - destruct (merging s) as [|m ms] eqn:Em; [left; auto|right]. rewrite <- Em.
    pose proof (topok_mass _ (si_top _ _ _ _ _ _ _ _ _ HS)) as HT. rewrite Em in HT at 1. specialize (HT ltac:(discriminate)).
    pose proof (si_mass _ _ _ _ _ _ _ _ _ HS) as HM. rewrite volume_load in HM. lia.
Qed.
Print Assumptions c17_trace_never_panics_and_keeps_pace.

(** ** C14: at every time at or beyond the logical compaction frontier the trace accumulates to exactly
    what was inserted. *)
Theorem c14_trace_accumulations : forall (B M D T R : Type) (OD : Ord D) (TT : Time T) (DR : Diff R)
  (ops : BatchOps B M T) (contents : B -> list (D * T * R)) (laws : BatchLaws ops contents) e l h up L P,
  s_history ops contents laws l h up L P ->
  exists s, s_run ops (with_effort e) l = Some s /\
    same_beyond L (flat_map contents (map_batches s)) (flat_map contents h).
Proof.
  intros B M D T R OD TT DR ops contents laws e l h up L P H.
  destruct (history_runs ops contents laws e _ _ _ _ _ H) as (s & E & HS). exists s. split; auto.
  eapply same_beyond_mono; [|apply (cov_same _ _ _ _ _ _ (Sinv_cov _ _ _ _ _ _ _ _ _ HS))]. apply HS.
Qed.
Print Assumptions c14_trace_accumulations.

(** ** C14: more than that, compaction does no more than move each update to a time that is not told apart from its own at or
    beyond the logical compaction frontier. *)
Theorem c14_trace_moves_times : forall (B M D T R : Type) (OD : Ord D) (TT : Time T) (DR : Diff R)
  (ops : BatchOps B M T) (contents : B -> list (D * T * R)) (laws : BatchLaws ops contents) e l h up L P,
  s_history ops contents laws l h up L P ->
  exists s, s_run ops (with_effort e) l = Some s /\ alike L (flat_map contents (map_batches s)) (flat_map contents h) /\
    (L <> [] -> exists bs, batches_through ops s [] = Some bs /\ alike L (flat_map contents bs) (flat_map contents h)).
Proof.
  intros B M D T R OD TT DR ops contents laws e l h up L P H.
  destruct (history_runs ops contents laws e _ _ _ _ _ H) as (s & E & HS). exists s. split; [auto|]. split.
  - eapply alike_mono; [|apply (cov_alike _ _ _ _ _ _ (Sinv_cov _ _ _ _ _ _ _ _ _ HS))]. apply HS.
  - intros HL. destruct (batches_through_all_alike ops contents laws s h up L P _ HS HL) as (bs & E2 & A1 & A2). exists bs. auto.
Qed.
Print Assumptions c14_trace_moves_times.

(** ** C15: the batches of the trace, oldest first, tile the interval from the minimum to the upper
    frontier, each standing for a consecutive run of inserted batches; [read_upper] reports the upper
    frontier, and [advance_upper] passes no batch with updates. *)
Theorem c15_trace_tiles : forall (B M D T R : Type) (OD : Ord D) (TT : Time T) (DR : Diff R)
  (ops : BatchOps B M T) (contents : B -> list (D * T * R)) (laws : BatchLaws ops contents) e l h up L P,
  s_history ops contents laws l h up L P ->
  exists s, s_run ops (with_effort e) l = Some s /\
    tiles ops [tmin] (map_batches s) up /\ same_future (read_upper ops s) up /\
    exists gs, concat gs = h /\
      Forall2 (fun b g => g <> [] /\ tiles ops (lower_of ops b) g (upper_of ops b) /\
                          same_beyond (since_of ops b) (contents b) (flat_map contents g)) (map_batches s) gs.
Proof.
  intros B M D T R OD TT DR ops contents laws e l h up L P H.
  destruct (history_runs ops contents laws e _ _ _ _ _ H) as (s & E & HS). exists s. split; auto.
  pose proof (Sinv_cov _ _ _ _ _ _ _ _ _ HS) as HC. pose proof (cov_tiles _ _ _ _ _ _ HC _ _ (si_tiles _ _ _ _ _ _ _ _ _ HS)) as HT.
  split; auto. split; [exact (read_upper_ok ops _ _ _ HT)|].
  destruct HC as (gs & Eg & HF). exists gs. split; auto. pose proof (si_tiles _ _ _ _ _ _ _ _ _ HS) as Ht. rewrite <- Eg in Ht. clear - HF Ht.
  revert Ht. generalize ([tmin] : list T). induction HF as [|b g Bs gs HC HF IH]; intros lo Ht; constructor.
  - simpl in Ht. destruct (tiles_app _ _ _ _ _ Ht) as (mid & T1 & _). destruct HC as [O _ (x & r & Ex & Lx) (i & y & Ey & Uy) _ HSm].
    split; [rewrite Ex; discriminate|]. split; [|apply alike_beyond; auto].
    assert (Em : same_future mid (upper_of ops y)) by (apply (tiles_last ops lo i); rewrite <- Ey; exact T1).
    apply (fun H => tiles_up _ _ _ _ _ H (same_future_trans _ _ _ Em (same_future_sym _ _ Uy))) in T1.
    rewrite Ex in T1 |- *. inversion T1; subst. constructor; auto.
  - simpl in Ht. destruct (tiles_app _ _ _ _ _ Ht) as (mid & _ & T2). eapply IH; eauto.
Qed.
Print Assumptions c15_trace_tiles.

Theorem c15_advance_upper : forall (B M D T R : Type) (OD : Ord D) (TT : Time T) (DR : Diff R)
  (ops : BatchOps B M T) (contents : B -> list (D * T * R)) (laws : BatchLaws ops contents) e l h up L P F,
  s_history ops contents laws l h up L P -> antichain F ->
  exists s, s_run ops (with_effort e) l = Some s /\
    (forall t, beyond (advance_upper ops s F) t -> beyond F t) /\
    forall b, In b (map_batches s) -> b_len ops b <> 0 ->
      (forall t, beyond (advance_upper ops s F) t -> beyond (upper_of ops b) t) -> forall t, beyond F t -> beyond (upper_of ops b) t.
Proof.
  intros B M D T R OD TT DR ops contents laws e l h up L P F H HF.
  destruct (history_runs ops contents laws e _ _ _ _ _ H) as (s & E & HS). exists s. split; auto.
  pose proof (Sinv_cov _ _ _ _ _ _ _ _ _ HS) as HC. pose proof (si_tiles _ _ _ _ _ _ _ _ _ HS) as Ht.
  pose proof (cov_strict _ _ _ _ _ _ _ _ HC Ht (si_proper _ _ _ _ _ _ _ _ _ HS)) as Hst.
  destruct (advance_upper_ok ops _ _ _ (cov_tiles _ _ _ _ _ _ HC _ _ Ht) Hst (map_batches s) [] F eq_refl HF) as (_ & A2 & A3).
  split; [exact A2|]. intros b Hb Hn. apply A3; auto. unfold nonempty. apply Bool.negb_true_iff, Nat.eqb_neq; auto.
Qed.
Print Assumptions c15_advance_upper.

(** ** C16: for a frontier [F] at or beyond the physical compaction frontier at which the inserted batches
    divide into [h1] and [h2], the batches through [F] accumulate to exactly [h1] beyond the logical
    compaction frontier; the empty frontier gives everything. *)
Theorem c16_batches_through : forall (B M D T R : Type) (OD : Ord D) (TT : Time T) (DR : Diff R)
  (ops : BatchOps B M T) (contents : B -> list (D * T * R)) (laws : BatchLaws ops contents) e l h1 h2 up L P F mid,
  s_history ops contents laws l (h1 ++ h2) up L P -> L <> [] -> antichain F ->
  (forall t, beyond F t -> beyond P t) -> tiles ops [tmin] h1 mid -> same_future F mid ->
  exists s bs, s_run ops (with_effort e) l = Some s /\ batches_through ops s F = Some bs /\
    same_beyond L (flat_map contents bs) (flat_map contents h1) /\
    Forall (fun b => forall t, beyond F t -> beyond (upper_of ops b) t) bs.
Proof.
  intros B M D T R OD TT DR ops contents laws e l h1 h2 up L P F mid H HL HF HP HT HM.
  destruct (history_runs ops contents laws e _ _ _ _ _ H) as (s & E & HS).
  destruct (batches_through_ok ops contents laws s h1 h2 up L P _ F mid HS HL HF HP HT HM) as (bs & E2 & A1 & A2). exists s, bs. auto.
Qed.
Print Assumptions c16_batches_through.

Theorem c16_batches_all : forall (B M D T R : Type) (OD : Ord D) (TT : Time T) (DR : Diff R)
  (ops : BatchOps B M T) (contents : B -> list (D * T * R)) (laws : BatchLaws ops contents) e l h up L P,
  s_history ops contents laws l h up L P -> L <> [] ->
  exists s bs, s_run ops (with_effort e) l = Some s /\ batches_through ops s [] = Some bs /\
    same_beyond L (flat_map contents bs) (flat_map contents h).
Proof.
  intros B M D T R OD TT DR ops contents laws e l h up L P H HL.
  destruct (history_runs ops contents laws e _ _ _ _ _ H) as (s & E & HS).
  destruct (batches_through_all ops contents laws s h up L P _ HS HL) as (bs & E2 & A1 & A2). exists s, bs. auto.
Qed.
Print Assumptions c16_batches_all.

(** ** The batches of ord_neu.rs
    A trace of such batches, read with the cursor of [cursor_through] (trace/mod.rs:78-80): the cursor
    shows a collection that accumulates to the updates inserted up to [F]. *)
Theorem c16_val_cursor_through : forall (K V T R : Type) (OK : Ord K) (OV : Ord V) (TT : Time T) (DR : Diff R) (OR : Ord R)
  e l (h1 h2 : list (OrdValBatch K V T R)) up L P F mid,
  s_history ov_batch_ops ov_contents ov_laws l (h1 ++ h2) up L P -> L <> [] -> antichain F ->
  (forall t, beyond F t -> beyond P t) -> tiles ov_batch_ops [tmin] h1 mid -> same_future F mid ->
  exists s bs cl0 trs, s_run ov_batch_ops (with_effort e) l = Some s /\ batches_through ov_batch_ops s F = Some bs /\
    cl_new ov_ops (map (fun _ => ovc_new) bs) bs = Some cl0 /\
    presents_if (shared_seeks trs) (cl_ops ov_ops) bs cl0 (union_trie trs) /\
    same_beyond (D:=K*V) L (flat (union_trie trs)) (flat_map ov_contents h1).
Proof.
  intros K V T R OK OV TT DR OR e l h1 h2 up L P F mid H HL HF HP HT HM.
  destruct (history_runs ov_batch_ops ov_contents ov_laws e _ _ _ _ _ H) as (s & E & HS).
  destruct (batches_through_ok ov_batch_ops ov_contents ov_laws s h1 h2 up L P _ F mid HS HL HF HP HT HM) as (bs & E2 & A1 & A2).
  assert (HO : Forall ov_batch bs).
  { pose proof (cov_ok _ _ _ _ _ _ (Sinv_cov _ _ _ _ _ _ _ _ _ HS)) as HO. apply Forall_forall. intros b Hb. rewrite Forall_forall in HO.
    apply HO. exact (batches_through_in _ _ _ _ E2 b Hb). }
  set (bs' := map (fun b => (b, ov_contents b)) bs).
  assert (HR : Forall (fun b => ov_batch (fst b) /\ reads_as ov_ops (fst b) ovc_new (snd b)) bs').
  { unfold bs'. rewrite Forall_map. eapply Forall_impl; [|exact HO]. intros b Hb. simpl. split; auto.
    destruct (ov_batch_holds b Hb) as (tr & Htr). rewrite (ov_contents_holds b tr Htr). apply ov_holds_reads; auto. }
  destruct (c13_batches _ _ _ _ _ _ _ _ _ bs' HR) as (cl0 & Ecl & Hcl).
  unfold bs' in Ecl, Hcl. rewrite !map_map in Ecl, Hcl. cbn [fst snd] in Ecl, Hcl. rewrite map_id in Ecl, Hcl.
  exists s, bs, cl0, (map (fun b => trie_of (ov_contents b)) bs). split; auto. split; auto. split; auto. split; auto.
  eapply same_beyond_trans; [|exact A1]. apply same_weights_beyond.
  intros a. rewrite (union_trie_weights _ a). f_equal. rewrite flat_map_concat_map, map_map, flat_map_concat_map. f_equal.
  apply map_ext_in. intros b _. apply flat_trie_of.
Qed.
Print Assumptions c16_val_cursor_through.

(** ** A concrete history: five batches and background work; the first four end merged, and their times
    compacted to 3. *)
Definition c14_b (us : list (nat * nat * nat * Z)) (lo : nat) (up : list nat) := ovb_seal [us] {| d_lower := [lo]; d_upper := up; d_since := [0] |}.
Definition c14_h : list (OrdValBatch nat nat nat Z) :=
  [c14_b [((1, 10, 0), 1%Z); ((2, 10, 0), 1%Z)] 0 [1]; c14_b [((1, 10, 1), (-1)%Z); ((1, 11, 1), 1%Z)] 1 [2];
   c14_b [] 2 [3]; c14_b [((2, 10, 3), 1%Z)] 3 [4]; c14_b [((3, 10, 4), 1%Z)] 4 [5]].
Definition c14_ops : list (s_op (OrdValBatch nat nat nat Z) nat) :=
  [SSetLogical [1]; SSetPhysical [2]] ++ map SInsert (firstn 3 c14_h) ++ [SSetLogical [3]; SExert (Some 5); SSetPhysical [4]] ++
  map SInsert (skipn 3 c14_h) ++ [SExert (Some 9); SExert (Some 9)].

Lemma c14_b_proper us lo up : consolidated (A:=nat*nat*nat) us -> lo < up -> proper ov_batch_ops ov_contents ov_laws (c14_b us lo [up]).
Proof.
  intros HC Hl. assert (HL : lower_of ov_batch_ops (c14_b us lo [up]) = [lo])
    by (unfold lower_of, c14_b, ovb_seal, ovb_done; simpl; repeat match goal with |- context[let (_, _) := ?p in _] => destruct p end; reflexivity).
  assert (HU : upper_of ov_batch_ops (c14_b us lo [up]) = [up])
    by (unfold upper_of, c14_b, ovb_seal, ovb_done; simpl; repeat match goal with |- context[let (_, _) := ?p in _] => destruct p end; reflexivity).
  constructor; rewrite ?HL, ?HU.
  - apply (ovB_built us); auto. apply app_nil_r.
  - constructor; [intros y []|constructor].
  - constructor; [intros y []|constructor].
  - discriminate.
  - intros t (f & [<-|[]] & Hf). exists lo. split; [left; auto|]. eapply tle_trans; [|exact Hf]. apply nat_tle; lia.
  - intros H. destruct (proj1 (H lo)) as (f & [<-|[]] & Hf).
    + exists lo. split; [left; auto|apply tle_refl].
    + apply nat_tle in Hf. lia.
Qed.

Example c14_history : s_history ov_batch_ops ov_contents ov_laws c14_ops c14_h [5] [3] [4].
Proof.
  assert (HC : forall b, In b c14_h -> proper ov_batch_ops ov_contents ov_laws b).
  { intros b [<-|[<-|[<-|[<-|[<-|[]]]]]]; apply c14_b_proper; try lia; split; simpl; repeat constructor. }
  assert (HB : forall (a b t : nat), a <= b -> beyond [b] t -> beyond [a] t).
  { intros a b t Hab (f & [<-|[]] & Hf). exists a. split; [left; auto|]. eapply tle_trans; [|exact Hf].
    apply nat_tle; auto. }
  assert (HK : forall L t, beyond L t -> beyond [0] t). { intros L t _. exists 0. split; [left; auto|]. apply nat_tle; lia. }
  assert (H : s_history ov_batch_ops ov_contents ov_laws [] ([] : list (OrdValBatch nat nat nat Z)) [0] [0] [0]) by exact (sh_nil _ _ _).
  eapply (sh_logical _ _ _ _ _ _ _ _ [1]) in H; [|intros t; apply HB; lia].
  eapply (sh_physical _ _ _ _ _ _ _ _ [2]) in H; [|intros t; apply HB; lia].
  eapply (sh_insert _ _ _ _ _ _ _ _ (nth 0 c14_h (c14_b [] 0 []))) in H; [|apply HC; simpl; tauto|intros t; reflexivity|intros t; apply HK].
  eapply (sh_insert _ _ _ _ _ _ _ _ (nth 1 c14_h (c14_b [] 0 []))) in H; [|apply HC; simpl; tauto|intros t; reflexivity|intros t; apply HK].
  eapply (sh_insert _ _ _ _ _ _ _ _ (nth 2 c14_h (c14_b [] 0 []))) in H; [|apply HC; simpl; tauto|intros t; reflexivity|intros t; apply HK].
  eapply (sh_logical _ _ _ _ _ _ _ _ [3]) in H; [|intros t; apply HB; lia].
  eapply (sh_exert _ _ _ _ _ _ _ _ (Some 5)) in H.
  eapply (sh_physical _ _ _ _ _ _ _ _ [4]) in H; [|intros t; apply HB; lia].
  eapply (sh_insert _ _ _ _ _ _ _ _ (nth 3 c14_h (c14_b [] 0 []))) in H; [|apply HC; simpl; tauto|intros t; reflexivity|intros t; apply HK].
  eapply (sh_insert _ _ _ _ _ _ _ _ (nth 4 c14_h (c14_b [] 0 []))) in H; [|apply HC; simpl; tauto|intros t; reflexivity|intros t; apply HK].
  eapply (sh_exert _ _ _ _ _ _ _ _ (Some 9)) in H. eapply (sh_exert _ _ _ _ _ _ _ _ (Some 9)) in H. exact H.
Qed.

Example c14_run :
  option_map (fun s => map ov_contents (map_batches s)) (s_run ov_batch_ops (with_effort 1) c14_ops) =
    Some [[((1, 11, 3), 1%Z); ((2, 10, 3), 2%Z)]; [((3, 10, 4), 1%Z)]] /\
  option_map (fun s => option_map (map ov_contents) (batches_through ov_batch_ops s [4])) (s_run ov_batch_ops (with_effort 1) c14_ops) =
    Some (Some [[((1, 11, 3), 1%Z); ((2, 10, 3), 2%Z)]]) /\
  option_map (fun s => (length (merging s), read_upper ov_batch_ops s)) (s_run ov_batch_ops (with_effort 1) c14_ops) = Some (5, [5]).
Proof. vm_compute. auto. Qed.
