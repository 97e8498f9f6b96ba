(** C13, C42: merged cursors. *)
From Verif Require Import Base.Arrays Base.Collections Spec.BatchSpec Model.OrdNeuM Proofs.CursorListP Proofs.TrieP Props.OrdNeuProps.

(** ** C13
    For sources of any kind whose cursors present sorted tries, the merged cursor presents their union
    under every navigation that seeks values only where all sources hold the key (see C42).  The union
    holds every update of every source. *)
Theorem c13_merged_cursor_presents_union : forall (St C K V T R : Type) (OK : Ord K) (OV : Ord V) (ops : CursorOps St C K V T R)
  (srcs : list (St * C * trie K V T R)),
  Forall (fun s => let '(st, c0, tr) := s in
    presents ops st c0 tr /\ strictly_sorted (map fst tr) /\ Forall (fun e => strictly_sorted (map fst (snd e))) tr) srcs ->
  let sts := map (fun s => fst (fst s)) srcs in
  let trs := map snd srcs in
  exists cl0, cl_new ops (map (fun s => snd (fst s)) srcs) sts = Some cl0 /\
    presents_if (shared_seeks trs) (cl_ops ops) sts cl0 (union_trie trs).
Proof.
  intros St C K V T R OK OV ops srcs H sts trs. apply cl_presents. eapply Forall_impl; [|exact H].
  intros [[st c0] tr] (H1 & H2 & H3). split; [split|]; auto.
Qed.
Print Assumptions c13_merged_cursor_presents_union.

Theorem c13_union_holds_all_updates : forall (K V T R : Type) (OK : Ord K) (OV : Ord V) (OT : Ord T) (DR : Diff R) (trs : list (trie K V T R)),
  same_weights (flat (union_trie trs)) (flat_map flat trs) /\
  strictly_sorted (map fst (union_trie trs)) /\ Forall (fun e => strictly_sorted (map fst (snd e))) (union_trie trs).
Proof.
  intros K V T R OK OV OT DR trs. split; [apply union_trie_weights|]. split; [apply (keys_U_sorted trs)|].
  unfold union_trie. apply Forall_forall. intros e He. apply in_map_iff in He as (k & <- & _). simpl. rewrite map_map. simpl.
  rewrite map_id. apply sort_set_sorted.
Qed.
Print Assumptions c13_union_holds_all_updates.

(** In particular for any number of batches. *)
Theorem c13_batches : forall (K V T R : Type) (OK : Ord K) (OV : Ord V) (TT : Time T) (DR : Diff R) (OR : Ord R)
  (bs : list (OrdValBatch K V T R * list (K * V * T * R))),
  Forall (fun b => ov_batch (fst b) /\ reads_as ov_ops (fst b) ovc_new (snd b)) bs ->
  exists cl0, cl_new ov_ops (map (fun _ => ovc_new) bs) (map fst bs) = Some cl0 /\
    presents_if (shared_seeks (map (fun b => trie_of (snd b)) bs)) (cl_ops ov_ops) (map fst bs) cl0
      (union_trie (map (fun b => trie_of (snd b)) bs)).
Proof.
  intros K V T R OK OV TT DR OR bs H.
  pose proof (c13_merged_cursor_presents_union _ _ _ _ _ _ _ _ ov_ops (map (fun b => (fst b, ovc_new, trie_of (snd b))) bs)) as HC.
  rewrite Forall_map in HC. cbv zeta in HC. rewrite !map_map in HC. cbn [fst snd] in HC. apply HC.
  eapply Forall_impl; [|exact H]. intros [b us] [H1 [H2 H2']]. simpl in *. split; auto.
  destruct (c11_val_batches_readable _ _ _ _ _ _ _ _ _ b H1) as (us' & H3 & H4 & _).
  rewrite (Proofs.BatchP.reads_as_unique _ _ _ us us' (conj H2 H2') H3). apply (wf_sorted (trie_of us')). apply trie_of_wf; auto.
Qed.
Print Assumptions c13_batches.

Definition c13_b2 := ovb_seal [[((1, 10, 6), 3%Z); ((2, 9, 6), 2%Z); ((5, 0, 6), 1%Z)]] {| d_lower := [6]; d_upper := [8]; d_since := [0] |}.
Example c13_ex :
  (cl <- cl_new ov_ops [ovc_new; ovc_new] [c11_b1; c13_b2]; vec <- to_vec (cl_ops ov_ops) 9 9 [c11_b1; c13_b2] cl; Some (flat_vec vec)) =
  Some [((1, 10, 5), 1%Z); ((1, 10, 6), 3%Z); ((1, 11, 5), 1%Z); ((1, 12, 4), 1%Z); ((1, 12, 5), 1%Z);
        ((2, 9, 6), 2%Z); ((2, 10, 5), 1%Z); ((4, 0, 5), 1%Z); ((5, 0, 6), 1%Z)].
Proof. vm_compute; auto. Qed.

(** ** C42
    Findings: seeking a value moves the cursors of sources that are at other keys, so their values are
    missed later; and it panics when a source is exhausted. *)
Definition c42_batch (us : list (nat * nat * nat * Z)) := ovb_seal [us] {| d_lower := [0]; d_upper := [8]; d_since := [0] |}.
Definition c42_b1 := c42_batch [((1, 5, 0), 1%Z)].
Definition c42_b2 := c42_batch [((2, 1, 0), 1%Z); ((2, 9, 0), 1%Z)].

Theorem c42_seek_val_skips_values_of_later_keys_refuted : exists (sts : list (OrdValBatch nat nat nat Z)) cl0 c,
  cl_new ov_ops [ovc_new; ovc_new] sts = Some cl0 /\ Forall ov_batch sts /\
  c_run (cl_ops ov_ops) sts cl0 [SeekVal 8; StepKey] = Some c /\
  c_run (cl_ops ov_ops) sts cl0 [StepKey] <> None /\
  (* key 2 is shown without its value 1 *)
  c_observe (cl_ops ov_ops) sts c = Some (Some (2, Some (9, [(0, 1%Z)]))) /\
  (c' <- c_run (cl_ops ov_ops) sts cl0 [StepKey]; c_observe (cl_ops ov_ops) sts c') = Some (Some (2, Some (1, [(0, 1%Z)]))).
Proof.
  exists [c42_b1; c42_b2]. do 2 eexists. split; [vm_compute; reflexivity|]. split.
  - constructor; [|constructor; [|constructor]].
    + apply (ovB_built [((1, 5, 0), 1%Z)]); [|reflexivity]. split; simpl; repeat constructor.
    + apply (ovB_built [((2, 1, 0), 1%Z); ((2, 9, 0), 1%Z)]); [|reflexivity]. split; simpl; repeat constructor.
  - split; [vm_compute; reflexivity|]. split; [vm_compute; discriminate|]. vm_compute; auto.
Qed.
Print Assumptions c42_seek_val_skips_values_of_later_keys_refuted.

Theorem c42_seek_val_panics_at_exhausted_source_refuted : exists (sts : list (OrdValBatch nat nat nat Z)) cl0,
  Forall ov_batch sts /\ cl_new ov_ops [ovc_new; ovc_new] sts = Some cl0 /\
  c_run (cl_ops ov_ops) sts cl0 [StepKey] <> None /\
  c_run (cl_ops ov_ops) sts cl0 [StepKey; SeekVal 0] = None.
Proof.
  exists [c42_b1; c42_b2]. eexists. split.
  - constructor; [|constructor; [|constructor]].
    + apply (ovB_built [((1, 5, 0), 1%Z)]); [|reflexivity]. split; simpl; repeat constructor.
    + apply (ovB_built [((2, 1, 0), 1%Z); ((2, 9, 0), 1%Z)]); [|reflexivity]. split; simpl; repeat constructor.
  - split; [vm_compute; reflexivity|]. split; vm_compute; [discriminate|reflexivity].
Qed.
Print Assumptions c42_seek_val_panics_at_exhausted_source_refuted.

(** What does hold: where every source has the current key, the cursor comes to the first value at or
    after the target. *)
Theorem c42_seek_val_when_shared_partial : forall (St C K V T R : Type) (OK : Ord K) (OV : Ord V) (ops : CursorOps St C K V T R)
  (srcs : list (St * C * trie K V T R)),
  Forall (fun s => let '(st, c0, tr) := s in
    presents ops st c0 tr /\ strictly_sorted (map fst tr) /\ Forall (fun e => strictly_sorted (map fst (snd e))) tr) srcs ->
  let sts := map (fun s => fst (fst s)) srcs in
  let U := union_trie (map snd srcs) in
  exists cl0, cl_new ops (map (fun s => snd (fst s)) srcs) sts = Some cl0 /\
  forall navs p k v, run_if (shared_seeks (map snd srcs)) U start navs p ->
    at_key U p = Some k -> Forall (fun s => In k (map fst (snd s))) srcs ->
    exists c, c_run (cl_ops ops) sts cl0 (navs ++ [SeekVal v]) = Some c /\
      c_get_key (cl_ops ops) sts c = Some (Some k) /\
      c_get_val (cl_ops ops) sts c = Some (find (fun v' => leb v v') (skipn (vp p) (map fst (cur_vals U p)))).
Proof.
  intros St C K V T R OK OV ops srcs H sts U.
  destruct (c13_merged_cursor_presents_union _ _ _ _ _ _ _ _ ops srcs H) as (cl0 & E & HP). exists cl0. split; auto.
  intros navs p k v Hr Hk Hall.
  assert (Hr' : run_if (shared_seeks (map snd srcs)) U start (navs ++ [SeekVal v]) (move U p (SeekVal v))).
  { clear -Hr Hk Hall. induction Hr as [p|p op ops p' H1 H2 H3 IH]; simpl.
    - constructor; [simpl; congruence| |constructor]. simpl. intros tr Ht. exists k. split; auto.
      apply in_map_iff in Ht as (s & <- & Hs). rewrite Forall_forall in Hall. auto.
    - constructor; auto. }
  destruct (HP _ _ Hr') as (c & Ec & O). exists c. split; auto.
  rewrite <- Proofs.CursorP.prefix_find.
  unfold observation in O. change (at_key (union_trie (map snd srcs)) (move U p (SeekVal v))) with (at_key U p) in O. rewrite Hk in O.
  apply Proofs.CursorP.observe_some in O as (O1 & _ & O2 & _). split; auto.
  match goal with |- ?a = Some ?b => change (a = Some b); transitivity (Some (at_val U (move U p (SeekVal v)))); [|reflexivity] end.
  etransitivity; [exact O2|]. f_equal. unfold U. destruct (at_val _ _); reflexivity.
Qed.
Print Assumptions c42_seek_val_when_shared_partial.
