(** C56: columnar chunks. *)
From Verif Require Import Proofs.ConsolidationP Proofs.LatticeP Proofs.ChunkBatchP Proofs.SpineP Proofs.ChunkCursorP Props.ConsolidationProps Props.ChunkProps Props.SpineProps.
From Verif Require Import Spec.ColumnarSpec Model.ColumnarM Proofs.ColTrieP Proofs.ColMeldP Proofs.ColReadP Proofs.ColChunkP Proofs.ColAdvanceP Proofs.ColCursorP Base.Collections Base.Order.

(** ** Tries: what is put in is what is read
    [srt] is the sort that the code uses, any function returning a sorted permutation. *)
Theorem c56_build : forall (K V T R : Type) (OK : Ord K) (OV : Ord V) (TT : Time T) (DR : Diff R) srt, sorts (A:=K*V*T) srt ->
  forall l : list (K * V * T * R), exists u out, updates_consolidate srt (fold_left updates_push l updates_new) = Some u /\ form_unsorted srt l = Some u /\
    updates_iter u = Some out /\ consolidated (A:=K*V*T) out /\ same_weights (A:=K*V*T) out l /\ updates_len u = length out.
Proof.
  intros K V T R OK OV TT DR srt [Hp Hs] l. unfold updates_consolidate. rewrite push_all_read. unfold form_unsorted.
  pose proof (compact_srt srt Hp Hs l) as E. destruct (form_ok (srt l)) as (u & F & H); [rewrite E; apply consolidate_consolidated|]. rewrite E in H.
  exists u, (consolidate l). split; auto. split; auto. split; [apply updates_iter_ok; auto|]. split; [apply consolidate_consolidated|]. split; [apply consolidate_weight|apply holds_len; auto].
Qed.
Print Assumptions c56_build.

(** What is pushed can be read before it is consolidated. *)
Theorem c56_push : forall (K V T R : Type) (l : list (K * V * T * R)), updates_iter (fold_left updates_push l updates_new) = Some l.
Proof. intros. apply push_all_read. Qed.
Print Assumptions c56_push.

(** The same updates make the same trie, however they come about. *)
Theorem c56_canonical : forall (K V T R : Type) (OK : Ord K) (OV : Ord V) (TT : Time T) (DR : Diff R) srt srt', sorts (A:=K*V*T) srt -> sorts (A:=K*V*T) srt' ->
  forall l l' : list (K * V * T * R), same_weights (A:=K*V*T) l l' -> form_unsorted srt l = form_unsorted srt' l'.
Proof.
  intros K V T R OK OV TT DR srt srt' [Hp Hs] [Hp' Hs'] l l' W. unfold form_unsorted.
  pose proof (compact_srt srt Hp Hs l) as E. pose proof (compact_srt srt' Hp' Hs' l') as E'.
  destruct (form_ok (srt l)) as (u & F & H); [rewrite E; apply consolidate_consolidated|]. destruct (form_ok (srt' l')) as (u' & F' & H'); [rewrite E'; apply consolidate_consolidated|].
  rewrite F, F'. f_equal. rewrite E in H. rewrite E' in H'. rewrite (consolidate_canonical (A:=K*V*T) _ _ W) in H. eapply holds_unique; eauto.
Qed.
Print Assumptions c56_canonical.

(** Splitting at a number of updates, keeping the updates a bitmap asks for, and putting one trie after another. *)
Theorem c56_split : forall (K V T R : Type) (OK : Ord K) (OV : Ord V) (TT : Time T) (DR : Diff R) (l : list (K * V * T * R)) u, consolidated (A:=K*V*T) l -> form l = Some u ->
  forall n, exists a b, split_at u n = Some (a, b) /\ form (firstn n l) = Some a /\ form (skipn n l) = Some b.
Proof.
  intros K V T R OK OV TT DR l u HC F n. destruct (form_fixed l HC) as (u' & F' & H). rewrite F in F'. injection F' as <-. destruct (split_at_ok _ _ n H) as (a & b & E & Ha & Hb). rewrite <- (firstn_skipn n l) in HC. apply consolidated_app in HC as (C1 & C2 & _).
  exists a, b. split; auto. split; apply holds_form; auto.
Qed.
Print Assumptions c56_split.
Theorem c56_meld : forall (K V T R : Type) (OK : Ord K) (OV : Ord V) (TT : Time T) (DR : Diff R) (l1 l2 : list (K * V * T * R)) u1 u2,
  form l1 = Some u1 -> form l2 = Some u2 -> consolidated (A:=K*V*T) (l1 ++ l2) -> exists u, meld_pair u1 u2 = Some u /\ form (l1 ++ l2) = Some u.
Proof.
  intros K V T R OK OV TT DR l1 l2 u1 u2 F1 F2 HC. pose proof HC as HC0. apply consolidated_app in HC as (C1 & C2 & _). destruct (form_fixed _ C1) as (u & F & H1). rewrite F1 in F. injection F as <-. destruct (form_fixed _ C2) as (u & F & H2). rewrite F2 in F. injection F as <-.
  destruct (meld_pair_ok _ _ _ _ H1 H2 (proj1 HC0)) as (u & E & H). exists u. split; auto. apply holds_form; auto.
Qed.
Print Assumptions c56_meld.

(** ** Chunks: they keep the trait's contract
    [col_made], [col_rows]: the chunk was formed from a consolidated list, and what iterating over it gives.
    A chunk may be in memory or paged out, as the spiller decides.  The differences' default is their zero. *)
Section Chunks.
Context {K V T R : Type} {OK : Ord K} {OV : Ord V} {TT : Time T} {DR : Diff R}.
Definition col_chain (l : list (ColChunk K V T R)) : Prop := chain (D:=K*V) col_made col_rows l.
Definition col_updates (l : list (ColChunk K V T R)) : list (K * V * T * R) := flat_map col_rows l.
End Chunks.
Theorem c56_chunks : forall (K V T R : Type) (OK : Ord K) (OV : Ord V) (TT : Time T) (DR : Diff R) (l : list (K * V * T * R)), consolidated (A:=K*V*T) l ->
  exists u, form l = Some u /\ col_made (Resident u) /\ col_rows (Resident u) = l /\
  (l <> [] -> forall spiller, exists c, seal_chunk spiller (Resident u) = Some c /\ col_made c /\ col_rows c = l /\ col_len c = length l /\
     exists f z, col_bounds c = Some (fst f, fst z) /\ nth_error l 0 = Some f /\ nth_error l (length l - 1) = Some z).
Proof.
  intros K V T R OK OV TT DR l HC. destruct (form_fixed l HC) as (u & F & H). exists u. split; auto. destruct (of_made _ _ (resident_of _ _ H HC)) as [M E]. split; auto. split; auto. intros N spiller.
  destruct (seal_ok spiller _ M) as (c & S & Mc & Rc); [congruence|]. exists c. rewrite E in Rc. split; auto. split; auto. split; auto. split; [rewrite len_made by auto; congruence|].
  assert (L : 0 < length l) by (destruct l; [congruence|cbn; lia]). destruct (get_some l 0 L) as (f & Ef). destruct (get_some l (length l - 1)) as (z & Ez); [lia|]. exists f, z. split; auto. apply bounds_made; auto; rewrite Rc; auto.
Qed.
Print Assumptions c56_chunks.

Theorem c56_settle : forall (K V T R : Type) (OK : Ord K) (OV : Ord V) (TT : Time T) (DR : Diff R) target spiller, 0 < target ->
  forall pushes : list (list (ColChunk K V T R)), col_chain (concat pushes) ->
  exists out, in_calls (col_settle target spiller) [] pushes = Some out /\ col_updates out = col_updates (concat pushes) /\ col_chain out /\ graded target (map (fun c => length (col_rows c)) out).
Proof.
  intros K V T R OK OV TT DR target spiller Ht pushes [HN HC].
  destruct (c38_pack_any_calls (ColChunk K V T R) (K*V*T*R) col_rows col_made (consolidated (A:=K*V*T)) col_len target col_combine col_split (seal_chunk spiller)) with (pushes := pushes) as (o & E1 & R1 & G & N & E2); auto.
  { intros a b c H. apply consolidated_app in H as (_ & H & _). apply consolidated_app in H. tauto. }
  { apply len_made. }
  { intros a b. apply (good_combine target). }
  { intros c n. apply good_split. }
  { intros c M L. apply seal_ok; auto. rewrite (len_made _ M) in L. intros E. rewrite E in L. cbn in L. lia. }
  { apply (nonempty_fit target Ht) in HN. clear -HN. induction pushes as [|p pushes IH]; [constructor|]. cbn [concat] in HN. apply Forall_app in HN as [H1 H2]. constructor; auto. }
  exists o. split; auto. split; auto. assert (Ho : all_nonempty col_made col_rows o) by (apply (nonempty_fit target Ht); auto). split; [split; auto; unfold updates_of; rewrite R1; auto|].
  replace (map (fun c => length (col_rows c)) o) with (map col_len o); auto. apply map_ext_in. intros c Hc. apply len_made. rewrite Forall_forall in N. apply (N c Hc).
Qed.
Print Assumptions c56_settle.

Theorem c56_merge : forall (K V T R : Type) (OK : Ord K) (OV : Ord V) (TT : Time T) (DR : Diff R) target spiller, 0 < target ->
  forall l1 l2 : list (ColChunk K V T R), col_chain l1 -> col_chain l2 ->
  exists out, cm_merge (col_chunk target dzero spiller) l1 l2 = Some out /\ col_chain out /\ graded target (map col_len out) /\
    same_weights (A:=K*V*T) (col_updates out) (col_updates l1 ++ col_updates l2).
Proof. intros K V T R OK OV TT DR target spiller Ht l1 l2 C1 C2. exact (c39_merge _ _ _ _ _ _ _ _ _ _ (col_laws target Ht spiller) l1 l2 C1 C2). Qed.
Print Assumptions c56_merge.

Theorem c56_extract : forall (K V T R : Type) (OK : Ord K) (OV : Ord V) (TT : Time T) (DR : Diff R) target spiller, 0 < target ->
  forall (l : list (ColChunk K V T R)) upper, col_chain l ->
  exists frontier ready kept, cm_extract (col_chunk target dzero spiller) l upper = Some (frontier, ready, kept) /\ col_chain ready /\ col_chain kept /\
    graded target (map col_len ready) /\ graded target (map col_len kept) /\
    antichain frontier /\ (forall t, beyond frontier t <-> beyond (map time_of (col_updates kept)) t) /\
    col_updates ready = filter (fun u => negb (beyondb upper (time_of u))) (col_updates l) /\ col_updates kept = filter (fun u => beyondb upper (time_of u)) (col_updates l).
Proof. intros K V T R OK OV TT DR target spiller Ht l upper HC. exact (c39_extract _ _ _ _ _ _ _ _ _ _ (col_laws target Ht spiller) l upper HC). Qed.
Print Assumptions c56_extract.

Theorem c56_advance : forall (K V T R : Type) (OK : Ord K) (OV : Ord V) (TT : Time T) (DR : Diff R) frontier (pushes : list (list (ColChunk K V T R))), col_chain (concat pushes) ->
  exists out, in_calls (fun queue done => col_advance dzero queue frontier done) [] pushes = Some out /\ col_chain out /\
    same_weights (A:=K*V*T) (col_updates out) (map (fun u => (fst (fst u), advance_by (time_of (D:=K*V) u) frontier, snd u)) (col_updates (concat pushes))).
Proof. intros K V T R OK OV TT DR frontier pushes HC. exact (c39_advance _ _ _ _ _ _ _ _ _ _ (col_laws 1 Nat.lt_0_1 None) frontier pushes HC). Qed.
Print Assumptions c56_advance.

(** Batches of them merge, for any fuel, and a trace of such batches accumulates what was put in. *)
Theorem c56_batch_merge : forall (K V T R : Type) (OK : Ord K) (OV : Ord V) (TT : Time T) (DR : Diff R) target spiller, 0 < target ->
  let ops := col_chunk (K:=K) (V:=V) (T:=T) (R:=R) target dzero spiller in
  forall b1 b2 frontier, col_chain (cb_chunks b1) -> graded target (map col_len (cb_chunks b1)) -> col_chain (cb_chunks b2) -> graded target (map col_len (cb_chunks b2)) ->
  spans (chunk_batch_ops ops) b1 -> spans (chunk_batch_ops ops) b2 -> d_lower (cb_desc b1) <> [] -> same_future (d_upper (cb_desc b1)) (d_lower (cb_desc b2)) ->
  exists m, cbm_new b1 b2 frontier = Some m /\
  forall fuels, exists m', work_calls ops m b1 b2 fuels = Some m' /\
    ((Z.of_nat (length (col_updates (cb_chunks b1)) + length (col_updates (cb_chunks b2))) < fold_right Z.add 0 fuels)%Z -> cbm_complete m' = true) /\
    (cbm_complete m' = true -> exists b, cbm_done ops m' = Some b /\ col_chain (cb_chunks b) /\ graded target (map col_len (cb_chunks b)) /\
       same_future (d_lower (cb_desc b)) (d_lower (cb_desc b1)) /\ same_future (d_upper (cb_desc b)) (d_upper (cb_desc b2)) /\ d_since (cb_desc b) = frontier /\
       same_weights (A:=K*V*T) (col_updates (cb_chunks b)) (map (fun u => (fst (fst u), advance_by (time_of (D:=K*V) u) frontier, snd u)) (col_updates (cb_chunks b1) ++ col_updates (cb_chunks b2)))).
Proof.
  intros K V T R OK OV TT DR target spiller Ht ops b1 b2 F C1 G1 C2 G2 S1 S2 HN HF. pose proof (col_laws target Ht spiller : ChunkLaws ops col_made col_rows) as laws.
  destruct (c39_batch_merge _ _ _ _ _ _ _ ops col_made col_rows laws b1 b2 F (conj C1 G1) (conj C2 G2) S1 S2 HN HF) as (m & E & H). exists m. split; auto. intros fuels. destruct (H fuels) as (m' & E' & Q1 & Q2). exists m'. split; auto. split.
  - rewrite !(cb_len_ok ops col_made col_rows laws) in Q1 by (split; auto). exact Q1.
  - intros Hc. destruct (Q2 Hc) as (b & A1 & [A2 A3] & A4 & A5 & A6 & A7 & _). exists b. auto 8.
Qed.
Print Assumptions c56_batch_merge.
Theorem c56_trace_accumulations : forall (K V T R : Type) (OK : Ord K) (OV : Ord V) (TT : Time T) (DR : Diff R) target spiller (Ht : 0 < target),
  let ops := col_chunk (K:=K) (V:=V) (T:=T) (R:=R) target dzero spiller in
  forall e l h up L P, s_history (chunk_batch_ops ops) (cb_contents col_rows) (chunk_laws ops col_made col_rows (col_laws target Ht spiller)) l h up L P ->
  exists s, s_run (chunk_batch_ops ops) (with_effort e) l = Some s /\
    same_beyond L (flat_map (fun b => col_updates (cb_chunks b)) (map_batches s)) (flat_map (fun b => col_updates (cb_chunks b)) h).
Proof. intros. eapply c39_trace_accumulations. eassumption. Qed.
Print Assumptions c56_trace_accumulations.

(** ** The cursor of a chunk, and of a batch *)
Theorem c56_cursor : forall (K V T R : Type) (OK : Ord K) (OV : Ord V) (TT : Time T) (DR : Diff R) (c : ColChunk K V T R), col_made c -> presents cc_ops c cc_new (trie_of (col_rows c)).
Proof. intros K V T R OK OV TT DR c M. destruct (made_nest _ M) as [E W]. apply cc_presents; auto. Qed.
Print Assumptions c56_cursor.
Theorem c56_batch_cursor : forall (K V T R : Type) (OK : Ord K) (OV : Ord V) (TT : Time T) (DR : Diff R) (chunks : list (ColChunk K V T R)), col_chain chunks ->
  (forall navs p, legal_run (trie_of (col_updates chunks)) start (flat_map from_start navs) p ->
   exists x, c_run (cbc_ops cc_ops (fun _ => cc_new) col_kv_bounds) chunks (cbc_new (fun _ => cc_new) chunks) navs = Some x /\
     c_observe (cbc_ops cc_ops (fun _ => cc_new) col_kv_bounds) chunks x = Some (observation (trie_of (col_updates chunks)) p)) /\
  presents_if (forward (trie_of (col_updates chunks))) (cbc_ops cc_ops (fun _ => cc_new) col_kv_bounds) chunks (cbc_new (fun _ => cc_new) chunks) (trie_of (col_updates chunks)).
Proof.
  intros K V T R OK OV TT DR chunks HC. split; [exact (cursor_absolute _ _ _ _ _ col_navigable chunks HC)|exact (cursor_forward _ _ _ _ _ col_navigable chunks HC)].
Qed.
Print Assumptions c56_batch_cursor.

(** ** A finding: times are advanced by sums that start at the differences' default.  Where that is not their
    zero, advancing changes the differences, even if it changes no time. *)
Theorem c56_advance_default_refuted : exists (u : Updates nat nat nat Z) out, form [(0, 0, 0, 1%Z)] = Some u /\
  col_advance 1%Z [Resident u] [0] true = Some ([], out) /\ ~ same_weights (A:=nat*nat*nat) (col_updates out) [(0, 0, 0, 1%Z)].
Proof. eexists _, _. split; [vm_compute; reflexivity|]. split; [vm_compute; reflexivity|]. intros H. specialize (H (0, 0, 0)). vm_compute in H. discriminate. Qed.
Print Assumptions c56_advance_default_refuted.

(** ** A case: chunks of at most two updates, some paged out, with groups of a key and value across them. *)
Notation Chk0 := (ColChunk nat nat nat Z).
Definition c56_resident (l : list U0) : Chk0 := match form l with Some u => Resident u | None => Resident updates_new end.
Definition c56_spill : option (Updates nat nat nat Z -> bool) := Some (fun u => 2 <=? updates_len u).
Definition c56_sealed (l : list U0) : Chk0 := match seal_chunk c56_spill (c56_resident l) with Some c => c | None => c56_resident l end.
Definition c56_l1 : list Chk0 := map c56_sealed c39_l1.
Definition c56_l2 : list Chk0 := map c56_sealed c39_l2.
Example c56_some_paged : map (fun c : Chk0 => match c with Paged _ _ => true | Resident _ => false end) c56_l1 = [true; false; true].
Proof. vm_compute. reflexivity. Qed.
Lemma c56_sealed_ok l : consolidated (A:=nat*nat*nat) l -> l <> [] -> col_made (c56_sealed l) /\ col_rows (c56_sealed l) = l.
Proof.
  intros HC N. destruct (c56_chunks nat nat nat Z Ord_nat Ord_nat Time_nat Diff_Z l HC) as (u & F & M & Rw & H). destruct (H N c56_spill) as (c & S & Mc & Rc & _). unfold c56_sealed, c56_resident. rewrite F, S. auto.
Qed.
Lemma c56_chain_of (ls : list (list U0)) : Forall (fun l => consolidated (A:=nat*nat*nat) l /\ l <> []) ls -> consolidated (A:=nat*nat*nat) (concat ls) -> col_chain (map c56_sealed ls).
Proof.
  intros F HC. assert (E : updates_of col_rows (map c56_sealed ls) = concat ls).
  { clear HC. induction F as [|l ls [H1 H2] F IH]; [reflexivity|]. cbn [map updates_of flat_map concat]. destruct (c56_sealed_ok l H1 H2) as [_ ->]. unfold updates_of in IH. rewrite IH. reflexivity. }
  split; [|rewrite E; exact HC]. apply Forall_map. eapply Forall_impl; [|exact F]. cbn. intros l [H1 H2]. destruct (c56_sealed_ok l H1 H2) as [M ->]. auto.
Qed.
Example c56_chain1 : col_chain c56_l1 /\ col_chain c56_l2.
Proof. split; (apply c56_chain_of; [|c39_consolidated]); repeat (constructor; [split; [c39_consolidated|discriminate]|]); constructor. Qed.
Example c56_merges : exists out, cm_merge (col_chunk 2 0%Z c56_spill) c56_l1 c56_l2 = Some out /\ map col_len out = [2; 2; 2] /\
  col_updates out = [(0, 0, 0, 1%Z); (0, 0, 3, 2%Z); (0, 0, 4, (-1)%Z); (0, 0, 5, (-2)%Z); (1, 0, 0, 1%Z); (1, 1, 2, 1%Z)].
Proof. eexists. split; [vm_compute; reflexivity|]. vm_compute. auto. Qed.
Example c56_advances : exists out, in_calls (fun queue done => col_advance 0%Z queue [5] done) [] [firstn 2 c56_l1; skipn 2 c56_l1] = Some out /\
  col_updates out = [(1, 1, 5, 2%Z)].
Proof. eexists. split; [vm_compute; reflexivity|]. vm_compute. auto. Qed.
Example c56_extracts : exists f r k, cm_extract (col_chunk 2 0%Z c56_spill) c56_l1 [3] = Some (f, r, k) /\ f = [3] /\
  col_updates r = [(0, 0, 0, 1%Z); (1, 1, 2, 1%Z)] /\ col_updates k = [(0, 0, 3, 1%Z); (0, 0, 5, (-2)%Z); (1, 1, 4, 1%Z)].
Proof. eexists _, _, _. split; [vm_compute; reflexivity|]. vm_compute. auto. Qed.
Notation c56_look navs := (x <- c_run (cbc_ops cc_ops (fun _ => cc_new) col_kv_bounds) c56_l2 (cbc_new (fun _ => cc_new) c56_l2) navs;
  c_observe (cbc_ops cc_ops (fun _ => cc_new) col_kv_bounds) c56_l2 x).
Example c56_looks : c56_look [] = Some (Some (0, Some (0, [(3, 1%Z); (4, (-1)%Z)]))) /\ c56_look [SeekKey 1; StepVal] = Some (Some (1, Some (1, [(4, (-1)%Z)]))) /\
  c56_look [SeekKey 1; SeekVal 2] = Some (Some (1, None)) /\ c56_look [StepKey; StepKey] = Some None.
Proof. vm_compute. auto. Qed.
