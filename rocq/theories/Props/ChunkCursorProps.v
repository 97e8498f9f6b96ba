(** C40: the cursor of a batch of chunks ignores chunk boundaries. *)
From Verif Require Import Spec.ChunkCursorSpec Proofs.CursorP Proofs.LatticeP Proofs.VecCursorP Proofs.ChunkCursorP Base.Collections Base.Order.

(** Seeking a key starts over ([from_start]), whatever the cursor has been at.  With that, after any
    navigation, the cursor shows what is at the corresponding position of the concatenated updates. *)
Theorem c40_cursor : forall (C I K V T R : Type) (OK : Ord K) (OV : Ord V) (TT : Time T) (DR : Diff R)
    (ok : C -> Prop) (rows : C -> list (K * V * T * R)) (inner : CursorOps C I K V T R) (fresh : C -> I) (bounds : C -> option ((K * V) * (K * V))),
  NavigableLaws ok rows inner fresh bounds -> forall chunks, chain (D:=K*V) ok rows chunks ->
  forall navs p, legal_run (trie_of (updates_of (D:=K*V) rows chunks)) start (flat_map from_start navs) p ->
  exists x, c_run (cbc_ops inner fresh bounds) chunks (cbc_new fresh chunks) navs = Some x /\
    c_observe (cbc_ops inner fresh bounds) chunks x = Some (observation (trie_of (updates_of (D:=K*V) rows chunks)) p).
Proof. intros C I K V T R OK OV TT DR ok rows inner fresh bounds laws chunks HC. exact (cursor_absolute ok rows inner fresh bounds laws chunks HC). Qed.
Print Assumptions c40_cursor.

(** As long as keys are only sought forward, that is what every other cursor shows. *)
Theorem c40_forward : forall (C I K V T R : Type) (OK : Ord K) (OV : Ord V) (TT : Time T) (DR : Diff R)
    (ok : C -> Prop) (rows : C -> list (K * V * T * R)) (inner : CursorOps C I K V T R) (fresh : C -> I) (bounds : C -> option ((K * V) * (K * V))),
  NavigableLaws ok rows inner fresh bounds -> forall chunks, chain (D:=K*V) ok rows chunks ->
  presents_if (forward (trie_of (updates_of (D:=K*V) rows chunks))) (cbc_ops inner fresh bounds) chunks (cbc_new fresh chunks)
    (trie_of (updates_of (D:=K*V) rows chunks)).
Proof. intros C I K V T R OK OV TT DR ok rows inner fresh bounds laws chunks HC. exact (cursor_forward ok rows inner fresh bounds laws chunks HC). Qed.
Print Assumptions c40_forward.

(** Two chains with the same updates cannot be told apart. *)
Theorem c40_boundaries_do_not_show : forall (C I K V T R : Type) (OK : Ord K) (OV : Ord V) (TT : Time T) (DR : Diff R)
    (ok : C -> Prop) (rows : C -> list (K * V * T * R)) (inner : CursorOps C I K V T R) (fresh : C -> I) (bounds : C -> option ((K * V) * (K * V))),
  NavigableLaws ok rows inner fresh bounds -> forall l1 l2, chain (D:=K*V) ok rows l1 -> chain (D:=K*V) ok rows l2 ->
  updates_of (D:=K*V) rows l1 = updates_of (D:=K*V) rows l2 ->
  forall navs p, legal_run (trie_of (updates_of (D:=K*V) rows l1)) start (flat_map from_start navs) p ->
  exists x1 x2 o, c_run (cbc_ops inner fresh bounds) l1 (cbc_new fresh l1) navs = Some x1 /\
    c_run (cbc_ops inner fresh bounds) l2 (cbc_new fresh l2) navs = Some x2 /\
    c_observe (cbc_ops inner fresh bounds) l1 x1 = Some o /\ c_observe (cbc_ops inner fresh bounds) l2 x2 = Some o.
Proof.
  intros C I K V T R OK OV TT DR ok rows inner fresh bounds laws l1 l2 H1 H2 E navs p Hl.
  destruct (cursor_absolute ok rows inner fresh bounds laws l1 H1 navs p Hl) as (x1 & E1 & O1). rewrite E in Hl.
  destruct (cursor_absolute ok rows inner fresh bounds laws l2 H2 navs p Hl) as (x2 & E2 & O2). rewrite <- E in O2. exists x1, x2. eauto.
Qed.
Print Assumptions c40_boundaries_do_not_show.

(** VecChunk: its own cursor presents the chunk, and so batches of VecChunks have the above. *)
Theorem c40_vec_chunk : forall (K V T R : Type) (OK : Ord K) (OV : Ord V) (TT : Time T) (DR : Diff R) (us : list (K * V * T * R)),
  consolidated (A:=K*V*T) us -> presents vcc_ops us vcc_new (trie_of us).
Proof. intros. apply vec_presents; auto. Qed.
Print Assumptions c40_vec_chunk.
Theorem c40_vec_batch : forall (K V T R : Type) (OK : Ord K) (OV : Ord V) (TT : Time T) (DR : Diff R) (chunks : list (list (K * V * T * R))),
  Forall (fun c => c <> []) chunks -> consolidated (A:=K*V*T) (concat chunks) ->
  (forall navs p, legal_run (trie_of (concat chunks)) start (flat_map from_start navs) p ->
   exists x, c_run (cbc_ops vcc_ops (fun _ => vcc_new) vc_bounds) chunks (cbc_new (fun _ => vcc_new) chunks) navs = Some x /\
     c_observe (cbc_ops vcc_ops (fun _ => vcc_new) vc_bounds) chunks x = Some (observation (trie_of (concat chunks)) p)) /\
  presents_if (forward (trie_of (concat chunks))) (cbc_ops vcc_ops (fun _ => vcc_new) vc_bounds) chunks (cbc_new (fun _ => vcc_new) chunks) (trie_of (concat chunks)).
Proof.
  intros K V T R OK OV TT DR chunks HN HC.
  assert (Hu : updates_of (D:=K*V) (fun c => c) chunks = concat chunks) by (unfold updates_of; rewrite flat_map_concat_map, map_id; reflexivity).
  rewrite <- Hu. assert (Hch : chain (D:=K*V) (fun _ => True) (fun c => c) chunks) by (split; [eapply Forall_impl; [|exact HN]; cbn; auto|rewrite Hu; exact HC]). split.
  - exact (cursor_absolute _ _ _ _ _ vec_navigable chunks Hch).
  - exact (cursor_forward _ _ _ _ _ vec_navigable chunks Hch).
Qed.
Print Assumptions c40_vec_batch.

(** ** A case: key 1 spans three chunks, and its value 1 two. *)
Definition c40_chunks : list (list (nat * nat * nat * Z)) :=
  [[(0, 0, 0, 1%Z); (1, 0, 0, 1%Z)]; [(1, 1, 0, 1%Z); (1, 1, 1, 1%Z)]; [(1, 1, 2, 1%Z); (1, 2, 0, 1%Z)]; [(2, 0, 0, 1%Z)]].
Example c40_chunks_ok : Forall (fun c => c <> []) c40_chunks /\ consolidated (A:=nat*nat*nat) (concat c40_chunks).
Proof. split; [repeat constructor; discriminate|]. split; cbn; repeat constructor. Qed.
Notation c40_look navs := (x <- c_run (cbc_ops vcc_ops (fun _ => vcc_new) vc_bounds) c40_chunks (cbc_new (fun _ => vcc_new) c40_chunks) navs;
  c_observe (cbc_ops vcc_ops (fun _ => vcc_new) vc_bounds) c40_chunks x).
Example c40_times : c40_look [StepKey; SeekVal 1] = Some (Some (1, Some (1, [(0, 1%Z); (1, 1%Z); (2, 1%Z)]))).
Proof. vm_compute. reflexivity. Qed.
Example c40_steps : c40_look [SeekKey 1; StepVal; StepVal] = Some (Some (1, Some (2, [(0, 1%Z)]))) /\
  c40_look [SeekKey 1; StepVal; StepVal; StepVal] = Some (Some (1, None)) /\
  c40_look [SeekKey 1; StepVal; StepVal; StepVal; RewindVals] = Some (Some (1, Some (0, [(0, 1%Z)]))) /\
  c40_look [SeekKey 1; StepVal; StepKey] = Some (Some (2, Some (0, [(0, 1%Z)]))).
Proof. vm_compute. auto. Qed.

(** ** A finding: seeking a smaller key moves this cursor back, where other cursors stay where they are. *)
Theorem c40_seek_backward_refuted : exists chunks : list (list (nat * nat * nat * Z)),
  Forall (fun c => c <> []) chunks /\ consolidated (A:=nat*nat*nat) (concat chunks) /\
  ~ presents (cbc_ops vcc_ops (fun _ => vcc_new) vc_bounds) chunks (cbc_new (fun _ => vcc_new) chunks) (trie_of (concat chunks)).
Proof.
  exists c40_chunks. split; [apply c40_chunks_ok|]. split; [apply c40_chunks_ok|]. intros H.
  destruct (H [SeekKey 2; SeekKey 0] {| kp := 2; vp := 0 |}) as (x & E & O).
  - constructor; [exact Logic.I|]. constructor; [exact Logic.I|]. constructor.
  - vm_compute in E. inversion E; subst. vm_compute in O. discriminate.
Qed.
Print Assumptions c40_seek_backward_refuted.
