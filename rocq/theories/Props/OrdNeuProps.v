(** C10, C11, C12: the sorted batches of ord_neu.rs. *)
From Verif Require Import Base.Arrays Base.Collections Spec.BatchSpec Model.OrdNeuM
  Proofs.LatticeP Proofs.ConsolidationP Proofs.ContainerP Proofs.CursorP Proofs.TrieP Proofs.BatchP Proofs.DescriptionP
  Proofs.OrdNeuP Proofs.OrdKeyP.

(** ** C10
    [us] is any consolidated sequence of updates, [chain] any way of cutting it into builder inputs. *)
Theorem c10_val_batch_reads_back : forall (K V T R : Type) (OK : Ord K) (OV : Ord V) (TT : Time T) (DR : Diff R) (OR : Ord R)
  (us : list (K * V * T * R)) chain (d : Description T),
  consolidated (A:=K*V*T) us -> concat chain = us ->
  reads_as ov_ops (ovb_seal chain d) ovc_new us /\
  ov_updates (ovb_seal chain d) = length us /\ ov_desc (ovb_seal chain d) = d.
Proof.
  intros K V T R OK OV TT DR OR us chain d HC E. pose proof (ovb_seal_holds chain d us E HC) as H.
  pose proof (reads_as_intro _ _ _ _ (ov_presents _ _ H) (oh_wf _ _ H)) as HR. pose proof (oh_len _ _ H) as HL.
  rewrite flat_trie_of in HR, HL. split; auto. split; auto.
  unfold ovb_seal, ovb_done. destruct (ub_seal _ _) as [[? ?] ?]. reflexivity.
Qed.
Print Assumptions c10_val_batch_reads_back.

Theorem c10_key_batch_reads_back : forall (K T R : Type) (OK : Ord K) (TT : Time T) (DR : Diff R) (OR : Ord R)
  (us : list (K * unit * T * R)) chain (d : Description T),
  consolidated (A:=K*unit*T) us -> concat chain = us ->
  reads_as ok_ops (okb_seal chain d) okc_new us /\
  ok_updates (okb_seal chain d) = length us /\ ok_desc (okb_seal chain d) = d.
Proof.
  intros K T R OK TT DR OR us chain d HC E. destruct (okb_seal_holds chain d us E HC) as (g & Eg & H).
  pose proof (reads_as_intro _ _ _ _ (ok_presents _ _ H) (kh_wf _ _ H)) as HR. pose proof (kh_len _ _ H) as HL.
  rewrite <- Eg, flat_trie_of in HR, HL. split; auto. split; auto.
  unfold okb_seal, okb_done. destruct (ub_seal _ _) as [[? ?] ?]. reflexivity.
Qed.
Print Assumptions c10_key_batch_reads_back.

(** A consolidated sequence with two keys, repeated single updates (times and diffs shared), cut in two. *)
Definition c10_us : list (nat * nat * nat * Z) :=
  [((1, 10, 5), 1%Z); ((1, 11, 5), 1%Z); ((1, 12, 4), 1%Z); ((1, 12, 5), 1%Z); ((2, 10, 5), 1%Z); ((4, 0, 5), 1%Z)].
Definition c10_desc : Description nat := {| d_lower := [0]; d_upper := [6]; d_since := [0] |}.
Example c10_hyps : consolidated (A:=nat*nat*nat) c10_us /\ concat [firstn 2 c10_us; skipn 2 c10_us] = c10_us.
Proof. split; [|reflexivity]. split; simpl; repeat constructor. Qed.
Example c10_ex : let b := ovb_seal [firstn 2 c10_us; skipn 2 c10_us] c10_desc in
  u_times (ov_upds (ov_storage b)) = [5; 4; 5] /\ u_offs (ov_upds (ov_storage b)) = [0; 1; 1; 3; 3; 3] /\
  option_map flat_vec (to_vec ov_ops 6 6 b ovc_new) = Some c10_us.
Proof. vm_compute; auto. Qed.

(** A finding: without consolidated input the builder's value layout goes wrong; a value whose updates
    cancel is kept while its update list is not, and later values show other values' updates. *)
Theorem c10_val_builder_needs_consolidated_input_refuted : exists (us : list (nat * nat * nat * Z)),
  Forall (fun u => is_zero (snd u) = false) us /\
  to_vec ov_ops 9 9 (ovb_seal [us] c10_desc) ovc_new = None.
Proof.
  exists [((1, 10, 5), 1%Z); ((1, 10, 5), (-1)%Z); ((1, 11, 5), 1%Z)]. split; [repeat constructor|]. vm_compute. reflexivity.
Qed.
Print Assumptions c10_val_builder_needs_consolidated_input_refuted.

(** ** C11
    Batches as they come to exist: built from consolidated updates, empty, or merged. *)
Fixpoint ov_works {K V T R} {OK : Ord K} {OV : Ord V} {TT : Time T} {DR : Diff R} {OR : Ord R}
    (m : OrdValMerger K V T R) b1 b2 (fuels : list Z) : option (OrdValMerger K V T R) :=
  match fuels with [] => Some m | f :: fuels => ' (m, _) <- ovm_work m b1 b2 f; ov_works m b1 b2 fuels end.

Inductive ov_batch {K V T R} {OK : Ord K} {OV : Ord V} {TT : Time T} {DR : Diff R} {OR : Ord R} : OrdValBatch K V T R -> Prop :=
| ovB_built : forall us chain d, consolidated (A:=K*V*T) us -> concat chain = us -> ov_batch (ovb_seal chain d)
| ovB_empty : forall lower upper b, ov_empty lower upper = Some b -> ov_batch b
| ovB_merged : forall b1 b2 F m fuels m1 fuel m2 left, ov_batch b1 -> ov_batch b2 ->
    ovm_new b1 b2 F = Some m -> ov_works m b1 b2 fuels = Some m1 -> ovm_work m1 b1 b2 fuel = Some (m2, left) ->
    (0 < left)%Z -> ov_batch (ovm_done m2).

Fixpoint ok_works {K T R} {OK : Ord K} {TT : Time T} {DR : Diff R} {OR : Ord R}
    (m : OrdKeyMerger K T R) b1 b2 (fuels : list Z) : option (OrdKeyMerger K T R) :=
  match fuels with [] => Some m | f :: fuels => ' (m, _) <- okm_work m b1 b2 f; ok_works m b1 b2 fuels end.

Inductive ok_batch {K T R} {OK : Ord K} {TT : Time T} {DR : Diff R} {OR : Ord R} : OrdKeyBatch K T R -> Prop :=
| okB_built : forall us chain d, consolidated (A:=K*unit*T) us -> concat chain = us -> ok_batch (okb_seal chain d)
| okB_empty : forall lower upper b, ok_empty lower upper = Some b -> ok_batch b
| okB_merged : forall b1 b2 F m fuels m1 fuel m2 left, ok_batch b1 -> ok_batch b2 ->
    okm_new b1 b2 F = Some m -> ok_works m b1 b2 fuels = Some m1 -> okm_work m1 b1 b2 fuel = Some (m2, left) ->
    (0 < left)%Z -> ok_batch (okm_done m2).

Section Works.
Context {K V T R : Type} {OK : Ord K} {OV : Ord V} {TT : Time T} {DR : Diff R} {OR : Ord R}.

Lemma ov_works_ok (b1 b2 : OrdValBatch K V T R) tr1 tr2 : src_rep (ov_storage b1) tr1 -> src_rep (ov_storage b2) tr2 ->
  forall fuels m out, m_rep m tr1 tr2 out ->
  exists m' out', ov_works m b1 b2 fuels = Some m' /\ m_rep m' tr1 tr2 out' /\ ovm_desc m' = ovm_desc m.
Proof.
  intros H1 H2. induction fuels as [|f fuels IH]; intros m out HM; simpl.
  - eauto.
  - destruct (ovm_work_ok m b1 b2 tr1 tr2 out f H1 H2 HM) as (m' & f' & out' & E & HM' & Hd & _). rewrite E.
    destruct (IH _ _ HM') as (m2 & o2 & E2 & HM2 & Hd2). exists m2, o2. split; auto. split; auto. congruence.
Qed.

Lemma ov_batch_holds (b : OrdValBatch K V T R) : ov_batch b -> exists tr, ov_holds b tr.
Proof.
  induction 1 as [us chain d HC E | lower upper b E | b1 b2 F m fuels m1 fuel m2 left _ (tr1 & H1) _ (tr2 & H2) En Ew Ew2 Hl].
  - exists (trie_of us). apply ovb_seal_holds; auto.
  - exists []. eapply ov_empty_holds; eauto.
  - destruct (ov_works_ok b1 b2 tr1 tr2 (oh_src _ _ H1) (oh_src _ _ H2) fuels m [] (m_rep_new _ _ _ _ _ _ En)) as (m1' & o & E & HM & Hd).
    rewrite Ew in E. inversion E; subst m1'.
    destruct (ovm_work_ok m1 b1 b2 tr1 tr2 o fuel (oh_src _ _ H1) (oh_src _ _ H2) HM) as (m2' & f' & o' & E' & HM' & Hd' & _ & _ & Hfin).
    rewrite Ew2 in E'. inversion E'; subst m2' f'. destruct (Hfin Hl) as [K1 K2].
    eexists. exact (ovm_done_holds m2 b1 b2 tr1 tr2 o' H1 H2 HM' K1 K2).
Qed.

Lemma ov_holds_reads (b : OrdValBatch K V T R) tr : ov_holds b tr -> reads_as ov_ops b ovc_new (flat tr).
Proof. intros H. apply reads_as_intro; [apply ov_presents; auto | apply H]. Qed.

Lemma ok_works_ok (b1 b2 : OrdKeyBatch K T R) g1 g2 : ksrc_rep (ok_storage b1) g1 -> ksrc_rep (ok_storage b2) g2 ->
  forall fuels m out, km_rep m g1 g2 out ->
  exists m' out', ok_works m b1 b2 fuels = Some m' /\ km_rep m' g1 g2 out' /\ okm_desc m' = okm_desc m.
Proof.
  intros H1 H2. induction fuels as [|f fuels IH]; intros m out HM; simpl.
  - eauto.
  - destruct (okm_work_ok m b1 b2 g1 g2 out f H1 H2 HM) as (m' & f' & out' & E & HM' & Hd & _). rewrite E.
    destruct (IH _ _ HM') as (m2 & o2 & E2 & HM2 & Hd2). exists m2, o2. split; auto. split; auto. congruence.
Qed.

Lemma ok_batch_holds (b : OrdKeyBatch K T R) : ok_batch b -> exists g, ok_holds b g.
Proof.
  induction 1 as [us chain d HC E | lower upper b E | b1 b2 F m fuels m1 fuel m2 left _ (g1 & H1) _ (g2 & H2) En Ew Ew2 Hl].
  - destruct (okb_seal_holds chain d us E HC) as (g & _ & H). eauto.
  - exists []. eapply ok_empty_holds; eauto.
  - destruct (ok_works_ok b1 b2 g1 g2 (kh_src _ _ H1) (kh_src _ _ H2) fuels m [] (km_rep_new _ _ _ _ _ _ En)) as (m1' & o & E & HM & Hd).
    rewrite Ew in E. inversion E; subst m1'.
    destruct (okm_work_ok m1 b1 b2 g1 g2 o fuel (kh_src _ _ H1) (kh_src _ _ H2) HM) as (m2' & f' & o' & E' & HM' & Hd' & _ & _ & Hfin).
    rewrite Ew2 in E'. inversion E'; subst m2' f'. destruct (Hfin Hl) as [K1 K2].
    eexists. exact (okm_done_holds m2 b1 b2 g1 g2 o' H1 H2 HM' K1 K2).
Qed.

Lemma ok_holds_reads (b : OrdKeyBatch K T R) g : ok_holds b g -> reads_as ok_ops b okc_new (flat (kt g)).
Proof. intros H. apply reads_as_intro; [apply ok_presents; auto | apply H]. Qed.
End Works.

(** Every batch that comes to exist can be read. *)
Theorem c11_val_batches_readable : forall (K V T R : Type) (OK : Ord K) (OV : Ord V) (TT : Time T) (DR : Diff R) (OR : Ord R)
  (b : OrdValBatch K V T R), ov_batch b ->
  exists us, reads_as ov_ops b ovc_new us /\ consolidated (A:=K*V*T) us /\ ov_updates b = length us.
Proof.
  intros K V T R OK OV TT DR OR b Hb. destruct (ov_batch_holds b Hb) as (tr & H). exists (flat tr).
  exact (conj (ov_holds_reads b tr H) (conj (wf_trie_consolidated tr (oh_wf _ _ H)) (oh_len _ _ H))).
Qed.
Print Assumptions c11_val_batches_readable.

Theorem c11_key_batches_readable : forall (K T R : Type) (OK : Ord K) (TT : Time T) (DR : Diff R) (OR : Ord R)
  (b : OrdKeyBatch K T R), ok_batch b ->
  exists us, reads_as ok_ops b okc_new us /\ consolidated (A:=K*unit*T) us /\ ok_updates b = length us.
Proof.
  intros K T R OK TT DR OR b Hb. destruct (ok_batch_holds b Hb) as (g & H). exists (flat (kt g)).
  exact (conj (ok_holds_reads b g H) (conj (wf_trie_consolidated _ (kh_wf _ _ H)) (kh_len _ _ H))).
Qed.
Print Assumptions c11_key_batches_readable.

(** Merging can start on adjacent batches, and describes the combined interval. *)
Theorem c11_val_merge_begins : forall (K V T R : Type) (OK : Ord K) (OV : Ord V) (TT : Time T) (DR : Diff R) (OR : Ord R)
  (b1 b2 : OrdValBatch K V T R) F,
  antichain (d_upper (ov_desc b1)) -> antichain (d_lower (ov_desc b2)) ->
  same_future (d_upper (ov_desc b1)) (d_lower (ov_desc b2)) -> d_lower (ov_desc b1) <> [] ->
  exists m, ovm_new b1 b2 F = Some m /\
    d_lower (ovm_desc m) = d_lower (ov_desc b1) /\ d_upper (ovm_desc m) = d_upper (ov_desc b2) /\
    (forall t, beyond (d_since (ovm_desc m)) t <-> beyond (d_since (ov_desc b1)) t /\ beyond (d_since (ov_desc b2)) t /\ beyond F t).
Proof.
  intros K V T R OK OV TT DR OR b1 b2 F H1 H2 H3 H4. unfold ovm_new.
  rewrite (proj2 (ac_eqb_spec _ _ H1 H2) H3). unfold desc_new. destruct (d_lower (ov_desc b1)) eqn:E; [contradiction H4; auto|].
  eexists; split; [reflexivity|]. simpl. split; [auto|split; [auto|]].
  intros u. rewrite !(eq_refl : antichain_lattice_join _ _ = antichain_join _ _). rewrite !antichain_join_beyond. tauto.
Qed.
Print Assumptions c11_val_merge_begins.

Theorem c11_key_merge_begins : forall (K T R : Type) (OK : Ord K) (TT : Time T) (DR : Diff R) (OR : Ord R)
  (b1 b2 : OrdKeyBatch K T R) F,
  antichain (d_upper (ok_desc b1)) -> antichain (d_lower (ok_desc b2)) ->
  same_future (d_upper (ok_desc b1)) (d_lower (ok_desc b2)) -> d_lower (ok_desc b1) <> [] ->
  exists m, okm_new b1 b2 F = Some m /\
    d_lower (okm_desc m) = d_lower (ok_desc b1) /\ d_upper (okm_desc m) = d_upper (ok_desc b2) /\
    (forall t, beyond (d_since (okm_desc m)) t <-> beyond (d_since (ok_desc b1)) t /\ beyond (d_since (ok_desc b2)) t /\ beyond F t).
Proof.
  intros K T R OK TT DR OR b1 b2 F H1 H2 H3 H4. unfold okm_new.
  rewrite (proj2 (ac_eqb_spec _ _ H1 H2) H3). unfold desc_new. destruct (d_lower (ok_desc b1)) eqn:E; [contradiction H4; auto|].
  eexists; split; [reflexivity|]. simpl. split; [auto|split; [auto|]].
  intros u. rewrite !(eq_refl : antichain_lattice_join _ _ = antichain_join _ _). rewrite !antichain_join_beyond. tauto.
Qed.
Print Assumptions c11_key_merge_begins.

(** Working with any sequence of fuels never panics.  A call that leaves fuel has finished the merge; one
    with more fuel than there are updates leaves fuel; and a finished merge holds the compaction of the
    union [us], which is the same whatever fuels were used. *)
Theorem c11_val_merge : forall (K V T R : Type) (OK : Ord K) (OV : Ord V) (TT : Time T) (DR : Diff R) (OR : Ord R)
  (b1 b2 : OrdValBatch K V T R) F m us1 us2, ov_batch b1 -> ov_batch b2 ->
  reads_as ov_ops b1 ovc_new us1 -> reads_as ov_ops b2 ovc_new us2 -> ovm_new b1 b2 F = Some m ->
  exists us, compaction_of (D:=K*V) (d_since (ovm_desc m)) (us1 ++ us2) us /\
  forall fuels, exists m1, ov_works m b1 b2 fuels = Some m1 /\
  forall fuel, exists m2 left, ovm_work m1 b1 b2 fuel = Some (m2, left) /\
    ((Z.of_nat (length us1 + length us2) < fuel)%Z -> (0 < left)%Z) /\
    ((0 < left)%Z -> reads_as ov_ops (ovm_done m2) ovc_new us /\ ov_updates (ovm_done m2) = length us /\
                     ov_desc (ovm_done m2) = ovm_desc m).
Proof.
  intros K V T R OK OV TT DR OR b1 b2 F m us1 us2 HB1 HB2 HR1 HR2 En.
  destruct (ov_batch_holds b1 HB1) as (tr1 & H1). destruct (ov_batch_holds b2 HB2) as (tr2 & H2).
  rewrite (reads_as_unique _ _ _ _ _ HR1 (ov_holds_reads _ _ H1)), (reads_as_unique _ _ _ _ _ HR2 (ov_holds_reads _ _ H2)).
  exists (consolidate (A:=K*V*T) (map (adv_time (d_since (ovm_desc m))) (flat tr1 ++ flat tr2))). split; [apply compaction_ok|].
  intros fuels. destruct (ov_works_ok b1 b2 tr1 tr2 (oh_src _ _ H1) (oh_src _ _ H2) fuels m [] (m_rep_new _ _ _ _ _ _ En)) as (m1 & o & E & HM & Hd).
  exists m1. split; auto. intros fuel.
  destruct (ovm_work_ok m1 b1 b2 tr1 tr2 o fuel (oh_src _ _ H1) (oh_src _ _ H2) HM) as (m2 & f' & o' & E' & HM' & Hd' & Ht & Hf & Hfin).
  exists m2, f'. split; auto. split.
  - intros Hlt. pose proof (m_rep_bound _ _ _ _ HM') as Hb. lia.
  - intros Hl. destruct (Hfin Hl) as [K1 K2]. pose proof (ovm_done_holds m2 b1 b2 tr1 tr2 o' H1 H2 HM' K1 K2) as HD.
    assert (ED : ovm_desc m2 = ovm_desc m) by congruence.
    assert (EF : flat (compact_trie (d_since (ovm_desc m2)) (mtries tr1 tr2)) =
                 consolidate (A:=K*V*T) (map (adv_time (d_since (ovm_desc m))) (flat tr1 ++ flat tr2))).
    { rewrite ED. apply merged_flat; apply wf_sorted; [apply H1|apply H2]. }
    rewrite <- EF. split; [apply ov_holds_reads; auto|]. split; [apply HD|exact ED].
Qed.
Print Assumptions c11_val_merge.

Theorem c11_key_merge : forall (K T R : Type) (OK : Ord K) (TT : Time T) (DR : Diff R) (OR : Ord R)
  (b1 b2 : OrdKeyBatch K T R) F m us1 us2, ok_batch b1 -> ok_batch b2 ->
  reads_as ok_ops b1 okc_new us1 -> reads_as ok_ops b2 okc_new us2 -> okm_new b1 b2 F = Some m ->
  exists us, compaction_of (D:=K*unit) (d_since (okm_desc m)) (us1 ++ us2) us /\
  forall fuels, exists m1, ok_works m b1 b2 fuels = Some m1 /\
  forall fuel, exists m2 left, okm_work m1 b1 b2 fuel = Some (m2, left) /\
    ((Z.of_nat (length us1 + length us2) < fuel)%Z -> (0 < left)%Z) /\
    ((0 < left)%Z -> reads_as ok_ops (okm_done m2) okc_new us /\ ok_updates (okm_done m2) = length us /\
                     ok_desc (okm_done m2) = okm_desc m).
Proof.
  intros K T R OK TT DR OR b1 b2 F m us1 us2 HB1 HB2 HR1 HR2 En.
  destruct (ok_batch_holds b1 HB1) as (g1 & H1). destruct (ok_batch_holds b2 HB2) as (g2 & H2).
  rewrite (reads_as_unique _ _ _ _ _ HR1 (ok_holds_reads _ _ H1)), (reads_as_unique _ _ _ _ _ HR2 (ok_holds_reads _ _ H2)).
  exists (consolidate (A:=K*unit*T) (map (adv_time (d_since (okm_desc m))) (flat (kt g1) ++ flat (kt g2)))). split; [apply compaction_ok|].
  intros fuels. destruct (ok_works_ok b1 b2 g1 g2 (kh_src _ _ H1) (kh_src _ _ H2) fuels m [] (km_rep_new _ _ _ _ _ _ En)) as (m1 & o & E & HM & Hd).
  exists m1. split; auto. intros fuel.
  destruct (okm_work_ok m1 b1 b2 g1 g2 o fuel (kh_src _ _ H1) (kh_src _ _ H2) HM) as (m2 & f' & o' & E' & HM' & Hd' & Ht & Hf & Hfin).
  exists m2, f'. split; auto. split.
  - intros Hlt. pose proof (km_rep_bound _ _ _ _ HM') as Hb. rewrite !kt_flat_length in Hlt. lia.
  - intros Hl. destruct (Hfin Hl) as [K1 K2]. pose proof (okm_done_holds m2 b1 b2 g1 g2 o' H1 H2 HM' K1 K2) as HD.
    assert (ED : okm_desc m2 = okm_desc m) by congruence.
    assert (EF : flat (kt (flat_map (cval (d_since (okm_desc m2))) (mergew (@app (T * R)) g1 g2))) =
                 consolidate (A:=K*unit*T) (map (adv_time (d_since (okm_desc m))) (flat (kt g1) ++ flat (kt g2)))).
    { rewrite ED, <- compact_kt, <- mtries_kt. apply merged_flat; apply wf_sorted; [apply H1|apply H2]. }
    rewrite <- EF. split; [apply ok_holds_reads; auto|]. split; [apply HD|exact ED].
Qed.
Print Assumptions c11_key_merge.

Definition c11_us2 : list (nat * nat * nat * Z) := [((1, 10, 7), (-1)%Z); ((2, 9, 6), 2%Z); ((5, 0, 6), 1%Z)].
Definition c11_b1 := ovb_seal [c10_us] c10_desc.
Definition c11_b2 := ovb_seal [c11_us2] {| d_lower := [6]; d_upper := [8]; d_since := [0] |}.
Example c11_reach : ov_batch c11_b1 /\ ov_batch c11_b2 /\ ovm_new c11_b1 c11_b2 [7] <> None.
Proof.
  split; [|split].
  - apply (ovB_built c10_us); [apply c10_hyps|reflexivity].
  - apply (ovB_built c11_us2); [|reflexivity]. split; simpl; repeat constructor.
  - discriminate.
Qed.
(** Slices of one unit of fuel, and one generous call: the same batch; the updates at (1,10) cancel. *)
Example c11_ex :
  (m <- ovm_new c11_b1 c11_b2 [7]; m <- ov_works m c11_b1 c11_b2 [1; 1; 1; 1; 1; 1; 1; 1]%Z;
   ' (m, left) <- ovm_work m c11_b1 c11_b2 1%Z; vec <- to_vec ov_ops 9 9 (ovm_done m) ovc_new; Some (left, flat_vec vec)) =
    Some (1%Z, [((1, 11, 7), 1%Z); ((1, 12, 7), 2%Z); ((2, 9, 7), 2%Z); ((2, 10, 7), 1%Z); ((4, 0, 7), 1%Z); ((5, 0, 7), 1%Z)]) /\
  (m <- ovm_new c11_b1 c11_b2 [7];
   ' (m, left) <- ovm_work m c11_b1 c11_b2 100%Z; vec <- to_vec ov_ops 9 9 (ovm_done m) ovc_new; Some (left, flat_vec vec)) =
    Some (94%Z, [((1, 11, 7), 1%Z); ((1, 12, 7), 2%Z); ((2, 9, 7), 2%Z); ((2, 10, 7), 1%Z); ((4, 0, 7), 1%Z); ((5, 0, 7), 1%Z)]).
Proof. vm_compute; auto. Qed.

(** ** C12, for cursors
    From any position reached by legal navigation, [seek_key] shows the first key at or after the target
    among the current and later keys, and [seek_val] likewise for the values of the current key. *)
Theorem c12_val_seek : forall (K V T R : Type) (OK : Ord K) (OV : Ord V) (TT : Time T) (DR : Diff R) (OR : Ord R)
  (b : OrdValBatch K V T R) us, reads_as ov_ops b ovc_new us ->
  forall navs p, legal_run (trie_of us) start navs p ->
  (forall k, exists c, c_run ov_ops b ovc_new (navs ++ [SeekKey k]) = Some c /\
     c_get_key ov_ops b c = Some (find (fun k' => leb k k') (skipn (kp p) (map fst (trie_of us))))) /\
  (at_key (trie_of us) p <> None -> forall v, exists c, c_run ov_ops b ovc_new (navs ++ [SeekVal v]) = Some c /\
     c_get_key ov_ops b c = Some (at_key (trie_of us) p) /\
     c_get_val ov_ops b c = Some (find (fun v' => leb v v') (skipn (vp p) (map fst (cur_vals (trie_of us) p))))).
Proof. intros K V T R OK OV TT DR OR b us [HP _]. exact (presents_seek ov_ops b ovc_new (trie_of us) HP). Qed.
Print Assumptions c12_val_seek.

Theorem c12_key_seek : forall (K T R : Type) (OK : Ord K) (TT : Time T) (DR : Diff R) (OR : Ord R)
  (b : OrdKeyBatch K T R) us, reads_as ok_ops b okc_new us ->
  forall navs p, legal_run (trie_of us) start navs p ->
  (forall k, exists c, c_run ok_ops b okc_new (navs ++ [SeekKey k]) = Some c /\
     c_get_key ok_ops b c = Some (find (fun k' => leb k k') (skipn (kp p) (map fst (trie_of us))))) /\
  (at_key (trie_of us) p <> None -> forall v, exists c, c_run ok_ops b okc_new (navs ++ [SeekVal v]) = Some c /\
     c_get_key ok_ops b c = Some (at_key (trie_of us) p) /\
     c_get_val ok_ops b c = Some (find (fun v' => leb v v') (skipn (vp p) (map fst (cur_vals (trie_of us) p))))).
Proof. intros K T R OK TT DR OR b us [HP _]. exact (presents_seek ok_ops b okc_new (trie_of us) HP). Qed.
Print Assumptions c12_key_seek.

Example c12_seek_ex :
  (c <- c_run ov_ops c11_b1 ovc_new [SeekVal 11; StepVal; StepKey; SeekKey 3]; c_get_key ov_ops c11_b1 c) = Some (Some 4) /\
  (c <- c_run ov_ops c11_b1 ovc_new [StepVal; SeekVal 10]; c_get_val ov_ops c11_b1 c) = Some (Some 11).
Proof. vm_compute; auto. Qed.
