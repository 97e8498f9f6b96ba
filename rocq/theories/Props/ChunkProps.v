(** C38, C39: chunks, and the batches made of them. *)
From Verif Require Import Proofs.VecChunkP Proofs.ChunkBatchP Proofs.LatticeP Proofs.SpineP Props.SpineProps Props.ArrangeProps Base.Collections Base.Order.

(** ** C38
    The driver [pack], with any closures that do to the rows of a chunk what is asked of them: for chunks
    that are well made ([ok]), and, where chunks are joined, for updates that may follow each other ([good]). *)
Definition joins {C A} (rows : C -> list A) (ok : C -> Prop) (good : list A -> Prop) (len : C -> nat) (target : nat) (combine : C -> C -> option C) : Prop :=
  forall a b, ok a -> ok b -> 0 < len a -> 0 < len b -> good (rows a ++ rows b) -> len a + len b <= target ->
  exists c, combine a b = Some c /\ ok c /\ rows c = rows a ++ rows b.
Definition splits {C A} (rows : C -> list A) (ok : C -> Prop) (len : C -> nat) (split : C -> nat -> option (C * C)) : Prop :=
  forall c n, ok c -> 0 < n <= len c -> exists a b, split c n = Some (a, b) /\ ok a /\ ok b /\ rows a = firstn n (rows c) /\ rows b = skipn n (rows c).
Definition seals {C A} (rows : C -> list A) (ok : C -> Prop) (len : C -> nat) (seal : C -> option C) : Prop :=
  forall c, ok c -> 0 < len c -> exists c', seal c = Some c' /\ ok c' /\ rows c' = rows c.
Theorem c38_pack_any_calls : forall (C A : Type) (rows : C -> list A) (ok : C -> Prop) (good : list A -> Prop) (len : C -> nat) target combine split seal,
  (forall a b c, good (a ++ b ++ c) -> good b) -> (forall c, ok c -> len c = length (rows c)) -> 0 < target ->
  joins rows ok good len target combine -> splits rows ok len split -> seals rows ok len seal ->
  forall pushes, Forall (Forall (fun c => ok c /\ 0 < len c)) pushes -> good (flat_map rows (concat pushes)) ->
  exists out, in_calls (pack len target combine split seal) [] pushes = Some out /\
    flat_map rows out = flat_map rows (concat pushes) /\ graded target (map len out) /\ Forall (fun c => ok c /\ 0 < len c) out /\
    pack len target combine split seal (concat pushes) true = Some ([], out).
Proof.
  intros C A rows ok good len target combine split seal H0 H1 H2 H3 H4 H5 pushes HN HG.
  destruct (calls_ok rows ok good len target combine split seal H0 H1 H2 H3 H4 H5 pushes [] None (open_nil ok len target) HN HG) as (o & E1 & E2 & R & G & N). exists o. auto 8.
Qed.
Print Assumptions c38_pack_any_calls.

(** Between calls, at most one chunk is held back, of less than the target size. *)
Theorem c38_pack_holds_little : forall (C A : Type) (rows : C -> list A) (ok : C -> Prop) (good : list A -> Prop) (len : C -> nat) target combine split seal,
  (forall a b c, good (a ++ b ++ c) -> good b) -> (forall c, ok c -> len c = length (rows c)) -> 0 < target ->
  joins rows ok good len target combine -> splits rows ok len split -> seals rows ok len seal ->
  forall input, Forall (fun c => ok c /\ 0 < len c) input -> good (flat_map rows input) ->
  exists queue out, pack len target combine split seal input false = Some (queue, out) /\
    flat_map rows input = flat_map rows out ++ flat_map rows queue /\ graded target (map len (out ++ queue)) /\
    (queue = [] \/ exists c, queue = [c] /\ ok c /\ 0 < len c < target).
Proof.
  intros C A rows ok good len target combine split seal H0 H1 H2 H3 H4 H5 input HN HG.
  destruct (pack_ok rows ok good len target combine split seal H0 H1 H2 H3 H4 H5 false [] None input (open_nil ok len target) HN HG) as (carry & o & E & R & K & _). destruct (K eq_refl) as [G N L].
  exists (held carry), o. split; [exact E|]. split; [symmetry; exact R|]. split; [exact G|]. destruct carry as [c|]; [right|left; auto]. exists c. split; auto. cbn [held] in N. apply Forall_app in N as [_ N]. inversion N as [|? ? [N1 N2] _]; subst. auto.
Qed.
Print Assumptions c38_pack_holds_little.

(** VecChunk, whose chunks are vectors of updates. *)
Theorem c38_vec_settle : forall (K V T R : Type) (OK : Ord K) (OV : Ord V) (TT : Time T) (DR : Diff R) target, 0 < target ->
  forall pushes : list (list (list (K * V * T * R))), Forall (Forall (fun c => c <> [])) pushes ->
  exists out, in_calls (vc_settle target) [] pushes = Some out /\
    concat out = concat (concat pushes) /\ graded target (map (@length _) out) /\ Forall (fun c => c <> []) out /\
    settle_all (vec_chunk target) (concat pushes) = Some out.
Proof.
  intros K V T R OK OV TT DR target Ht pushes HN.
  destruct (c38_pack_any_calls (list (K*V*T*R)) (K*V*T*R) (fun c => c) (fun _ => True) (fun _ => True) (@length _) target (fun acc next => Some (acc ++ next)) (fun chunk n => Some (firstn n chunk, skipn n chunk)) Some) with (pushes := pushes) as (o & E1 & R1 & G & N & E2); auto.
  { intros a b. eauto 6. } { intros c n. eauto 9. } { intros c. eauto. }
  { eapply Forall_impl; [|exact HN]. intros l Hl. eapply Forall_impl; [|exact Hl]. intros [|? ?] Hc; [congruence|cbn; split; auto; lia]. }
  exists o. split; [exact E1|]. rewrite !flat_map_concat_map, !map_id in R1. split; [exact R1|]. split; [exact G|]. split; [eapply Forall_impl; [|exact N]; intros [|? ?] [_ Hc]; [cbn in Hc; lia|discriminate]|].
  unfold settle_all. cbn [ch_settle vec_chunk]. unfold vc_settle. rewrite E2. reflexivity.
Qed.
Print Assumptions c38_vec_settle.

(** The check that the code's assertions and tests make says what it should. *)
Theorem c38_is_graded : forall (C T : Type) (ops : ChunkOps C T) l, is_graded ops l = true <-> graded (ch_target ops) (map (ch_len ops) l).
Proof.
  intros C T ops l. unfold is_graded, graded. rewrite andb_true_iff, forallb_forall, Forall_map, Forall_forall. assert (HA : forall A B A' B' : Prop, (A <-> A') -> (B <-> B') -> (A /\ B <-> A' /\ B')) by tauto. apply HA; clear HA.
  - split; intros H c Hc; apply Nat.leb_le; auto.
  - induction l as [|a l IH]; [split; auto; intros _ [|i] x y Hx; discriminate|]. destruct l as [|b l]; [split; auto; intros _ [|[|i]] x y Hx Hy; discriminate|].
    change (pairs_exceed ops (a :: b :: l)) with ((ch_target ops <? ch_len ops a + ch_len ops b) && pairs_exceed ops (b :: l)). rewrite andb_true_iff, IH, Nat.ltb_lt. split.
    + intros [H1 H2] [|i] x y Hx Hy; [cbn in Hx, Hy; injection Hx as <-; injection Hy as <-; auto|]. exact (H2 i x y Hx Hy).
    + intros H. split; [exact (H 0 _ _ eq_refl eq_refl)|]. intros i x y Hx Hy. exact (H (S i) x y Hx Hy).
Qed.
Print Assumptions c38_is_graded.

Notation U0 := (nat * nat * nat * Z)%type.
Definition c38_row (k v t : nat) : U0 := (k, v, t, 1%Z).
Definition c38_rows (n : nat) : list U0 := map (fun i => c38_row i 0 0) (seq 0 n).
(** Sizes 1, 2, 7, 1, 3 in three calls, with target 3. *)
Example c38_example : exists out, in_calls (vc_settle 3) [] [[firstn 1 (c38_rows 14); firstn 2 (skipn 1 (c38_rows 14))]; [firstn 7 (skipn 3 (c38_rows 14)); firstn 1 (skipn 10 (c38_rows 14))]; [skipn 11 (c38_rows 14)]] = Some out /\
  map (@length _) out = [3; 3; 3; 2; 3] /\ concat out = c38_rows 14.
Proof. eexists. split; [vm_compute; reflexivity|]. vm_compute. auto. Qed.
(** An empty chunk is passed on, so that the chunks given must not be empty. *)
Example c38_empty_chunk : vc_settle (K:=nat) (V:=nat) (T:=nat) (R:=Z) 3 [[]] true = Some ([], [[]]).
Proof. reflexivity. Qed.

(** ** C39
    For chunks of any type that keeps the trait's contract ([ChunkLaws]), and for VecChunk, which does. *)

(** Merging two chains, as the batcher does: one graded chain, with the updates of both consolidated. *)
Theorem c39_merge : forall (C D T R : Type) (OD : Ord D) (TT : Time T) (DR : Diff R) (ops : ChunkOps C T) (ok : C -> Prop) (rows : C -> list (D * T * R)),
  ChunkLaws ops ok rows -> forall l1 l2, chain ok rows l1 -> chain ok rows l2 ->
  exists out, cm_merge ops l1 l2 = Some out /\ chain ok rows out /\ graded (ch_target ops) (map (ch_len ops) out) /\
    same_weights (A:=D*T) (updates_of rows out) (updates_of rows l1 ++ updates_of rows l2).
Proof. intros C D T R OD TT DR ops ok rows laws l1 l2 C1 C2. exact (cm_merge_ok ops ok rows laws l1 l2 C1 C2). Qed.
Print Assumptions c39_merge.

(** The same without settling. *)
Theorem c39_merge_chains : forall (C D T R : Type) (OD : Ord D) (TT : Time T) (DR : Diff R) (ops : ChunkOps C T) (ok : C -> Prop) (rows : C -> list (D * T * R)),
  ChunkLaws ops ok rows -> forall l1 l2, chain ok rows l1 -> chain ok rows l2 ->
  exists out, merge_chains ops l1 l2 = Some out /\ chain ok rows out /\ same_weights (A:=D*T) (updates_of rows out) (updates_of rows l1 ++ updates_of rows l2).
Proof. intros C D T R OD TT DR ops ok rows laws l1 l2 C1 C2. exact (merge_chains_ok ops ok rows laws l1 l2 C1 C2). Qed.
Print Assumptions c39_merge_chains.

(** Extracting parts the updates by the frontier, keeps their order, and reports the frontier of what is kept. *)
Theorem c39_extract : forall (C D T R : Type) (OD : Ord D) (TT : Time T) (DR : Diff R) (ops : ChunkOps C T) (ok : C -> Prop) (rows : C -> list (D * T * R)),
  ChunkLaws ops ok rows -> forall l upper, chain ok rows l ->
  exists frontier ready kept, cm_extract ops l upper = Some (frontier, ready, kept) /\ chain ok rows ready /\ chain ok rows kept /\
    graded (ch_target ops) (map (ch_len ops) ready) /\ graded (ch_target ops) (map (ch_len ops) kept) /\
    antichain frontier /\ (forall t, beyond frontier t <-> beyond (map time_of (updates_of rows kept)) t) /\
    updates_of rows ready = filter (fun u => negb (beyondb upper (time_of u))) (updates_of rows l) /\
    updates_of rows kept = filter (fun u => beyondb upper (time_of u)) (updates_of rows l).
Proof. intros C D T R OD TT DR ops ok rows laws l upper HC. exact (cm_extract_ok ops ok rows laws l upper HC). Qed.
Print Assumptions c39_extract.

(** Advancing times: however the updates are cut into chunks and calls, the result is their consolidation
    at the advanced times. *)
Theorem c39_advance : forall (C D T R : Type) (OD : Ord D) (TT : Time T) (DR : Diff R) (ops : ChunkOps C T) (ok : C -> Prop) (rows : C -> list (D * T * R)),
  ChunkLaws ops ok rows -> forall frontier pushes, chain ok rows (concat pushes) ->
  exists out, in_calls (fun queue done => ch_advance ops queue frontier done) [] pushes = Some out /\ chain ok rows out /\
    same_weights (A:=D*T) (updates_of rows out) (map (fun u => (fst (fst u), advance_by (time_of u) frontier, snd u)) (updates_of rows (concat pushes))).
Proof.
  intros C D T R OD TT DR ops ok rows laws frontier pushes [N HC].
  destruct (advance_calls_ok ops ok rows laws frontier pushes [] [] []) as (out & E & N2 & C2 & W2); auto.
  - constructor.
  - clear - N. induction pushes as [|p pushes IH]; constructor; cbn [concat] in N; apply Forall_app in N as [N1 N2]; auto.
  - intros x y [].
  - apply consolidated_nil.
  - apply same_weights_refl.
  - exists out. split; auto. split; [split; auto|auto].
Qed.
Print Assumptions c39_advance.

(** Merging batches: however the fuel is handed out, no call panics, fuel for the updates of both batches
    (and one more) is enough, and the batch is made of graded chunks with the consolidation of the updates
    at times advanced by the frontier. *)
Theorem c39_batch_merge : forall (C D T R : Type) (OD : Ord D) (TT : Time T) (DR : Diff R) (ops : ChunkOps C T) (ok : C -> Prop) (rows : C -> list (D * T * R)),
  ChunkLaws ops ok rows -> forall b1 b2 frontier, cb_ok ops ok rows b1 -> cb_ok ops ok rows b2 ->
  spans (chunk_batch_ops ops) b1 -> spans (chunk_batch_ops ops) b2 -> d_lower (cb_desc b1) <> [] -> same_future (d_upper (cb_desc b1)) (d_lower (cb_desc b2)) ->
  exists m, cbm_new b1 b2 frontier = Some m /\
  forall fuels, exists m', work_calls ops m b1 b2 fuels = Some m' /\
    ((Z.of_nat (cb_len ops b1 + cb_len ops b2) < fold_right Z.add 0 fuels)%Z -> cbm_complete m' = true) /\
    (cbm_complete m' = true -> exists b, cbm_done ops m' = Some b /\ cb_ok ops ok rows b /\
       same_future (d_lower (cb_desc b)) (d_lower (cb_desc b1)) /\ same_future (d_upper (cb_desc b)) (d_upper (cb_desc b2)) /\ d_since (cb_desc b) = frontier /\
       same_weights (A:=D*T) (cb_contents rows b) (map (fun u => (fst (fst u), advance_by (time_of u) frontier, snd u)) (cb_contents rows b1 ++ cb_contents rows b2)) /\
       compaction_of (D:=D) frontier (cb_contents rows b1 ++ cb_contents rows b2) (cb_contents rows b)).
Proof.
  intros C D T R OD TT DR ops ok rows laws b1 b2 F K1 K2 S1 S2 HN HF. destruct (begin_ok ops ok rows laws b1 b2 F K1 K2) as (m & E & HU & HL). exists m. split; [exact E|].
  intros fuels. destruct (work_calls_ok ops ok rows laws b1 b2 F fuels m _ _ _ _ HU HL) as (m' & E' & Q1 & Q2). exists m'. split; [exact E'|].
  rewrite !(cb_len_ok ops ok rows laws) by auto. split; [exact Q1|]. intros Hc. destruct (done_ok ops ok rows laws _ _ _ _ (Q2 Hc) S1 S2 HF HN) as (b & A1 & A2 & A3 & A4 & A5 & A6 & A7 & A8).
  exists b. repeat (split; [auto; fail|]). rewrite A7. split; [apply consolidate_weight|apply compaction_ok].
Qed.
Print Assumptions c39_batch_merge.

(** Building a batch, from a chain or chunk by chunk. *)
Theorem c39_build : forall (C D T R : Type) (OD : Ord D) (TT : Time T) (DR : Diff R) (ops : ChunkOps C T) (ok : C -> Prop) (rows : C -> list (D * T * R)),
  ChunkLaws ops ok rows -> forall l d,
  (chain ok rows l -> exists b, cbb_seal ops l d = Some b /\ cb_ok ops ok rows b /\ cb_contents rows b = updates_of rows l /\ cb_desc b = d) /\
  (Forall ok l -> consolidated (A:=D*T) (updates_of rows l) -> exists st b, fold_left (fun st c => match st with Some st => cbb_push ops st c | None => None end) l (Some ([], [])) = Some st /\
     cbb_done ops st d = Some b /\ cb_ok ops ok rows b /\ cb_contents rows b = updates_of rows l /\ cb_desc b = d).
Proof. intros C D T R OD TT DR ops ok rows laws l d. split; [apply seal_ok|apply build_ok]; auto. Qed.
Print Assumptions c39_build.

(** VecChunk: chunks are vectors of updates; a chain is as in [chain]. *)
Section Vec.
Context {K V T R : Type} {OK : Ord K} {OV : Ord V} {TT : Time T} {DR : Diff R}.
Local Notation U := (K * V * T * R)%type.
Definition vchain (l : list (list U)) : Prop := Forall (fun c => c <> []) l /\ consolidated (A:=K*V*T) (concat l).
Lemma rows_id (l : list (list U)) : updates_of (D:=K*V) (fun c => c) l = concat l.
Proof. unfold updates_of. rewrite flat_map_concat_map, map_id. reflexivity. Qed.
Lemma vchain_ok l : vchain l <-> chain (D:=K*V) (fun _ => True) (fun c => c) l.
Proof. rewrite chain_vec. unfold vchain, vec_chain. rewrite rows_id. reflexivity. Qed.
End Vec.

Theorem c39_vec_merge : forall (K V T R : Type) (OK : Ord K) (OV : Ord V) (TT : Time T) (DR : Diff R) target, 0 < target ->
  forall l1 l2 : list (list (K * V * T * R)), vchain l1 -> vchain l2 ->
  exists out, cm_merge (vec_chunk target) l1 l2 = Some out /\ vchain out /\ graded target (map (@length _) out) /\
    same_weights (A:=K*V*T) (concat out) (concat l1 ++ concat l2).
Proof.
  intros K V T R OK OV TT DR target Ht l1 l2 C1 C2. destruct (c39_merge _ _ _ _ _ _ _ _ _ _ (vec_laws target Ht) l1 l2) as (out & E & HC & G & W); [apply vchain_ok; auto|apply vchain_ok; auto|].
  exists out. rewrite !rows_id in W. split; [exact E|]. split; [apply vchain_ok; auto|]. auto.
Qed.
Print Assumptions c39_vec_merge.

Theorem c39_vec_extract : forall (K V T R : Type) (OK : Ord K) (OV : Ord V) (TT : Time T) (DR : Diff R) target, 0 < target ->
  forall (l : list (list (K * V * T * R))) upper, vchain l ->
  exists frontier ready kept, cm_extract (vec_chunk target) l upper = Some (frontier, ready, kept) /\ vchain ready /\ vchain kept /\
    graded target (map (@length _) ready) /\ graded target (map (@length _) kept) /\
    antichain frontier /\ (forall t, beyond frontier t <-> beyond (map time_of (concat kept)) t) /\
    concat ready = filter (fun u => negb (beyondb upper (time_of u))) (concat l) /\ concat kept = filter (fun u => beyondb upper (time_of u)) (concat l).
Proof.
  intros K V T R OK OV TT DR target Ht l upper HC. destruct (c39_extract _ _ _ _ _ _ _ _ _ _ (vec_laws target Ht) l upper) as (f & r & k & E & C1 & C2 & G1 & G2 & A1 & B1 & R1 & R2); [apply vchain_ok; auto|].
  exists f, r, k. rewrite !rows_id in *. split; [exact E|]. split; [apply vchain_ok; auto|]. split; [apply vchain_ok; auto|]. auto 8.
Qed.
Print Assumptions c39_vec_extract.

Theorem c39_vec_advance : forall (K V T R : Type) (OK : Ord K) (OV : Ord V) (TT : Time T) (DR : Diff R) target, 0 < target ->
  forall frontier (pushes : list (list (list (K * V * T * R)))), vchain (concat pushes) ->
  exists out, in_calls (fun queue done => vc_advance target queue frontier done) [] pushes = Some out /\ vchain out /\
    same_weights (A:=K*V*T) (concat out) (map (fun u => (fst (fst u), advance_by (time_of (D:=K*V) u) frontier, snd u)) (concat (concat pushes))).
Proof.
  intros K V T R OK OV TT DR target Ht frontier pushes HC. destruct (c39_advance _ _ _ _ _ _ _ _ _ _ (vec_laws target Ht) frontier pushes) as (out & E & C1 & W); [apply vchain_ok; auto|].
  exists out. rewrite !rows_id in W. split; [exact E|]. split; [apply vchain_ok; auto|exact W].
Qed.
Print Assumptions c39_vec_advance.

(** ** A trace of such batches, and arranging with them *)
Theorem c39_trace_accumulations : forall (C D T R : Type) (OD : Ord D) (TT : Time T) (DR : Diff R) (ops : ChunkOps C T) (ok : C -> Prop) (rows : C -> list (D * T * R))
  (laws : ChunkLaws ops ok rows) e l h up L P, s_history (chunk_batch_ops ops) (cb_contents rows) (chunk_laws ops ok rows laws) l h up L P ->
  exists s, s_run (chunk_batch_ops ops) (with_effort e) l = Some s /\
    same_beyond L (flat_map (cb_contents rows) (map_batches s)) (flat_map (cb_contents rows) h).
Proof. intros. eapply c14_trace_accumulations. eassumption. Qed.
Print Assumptions c39_trace_accumulations.

Section Arrange.
Context {K V T R : Type} {OK : Ord K} {OV : Ord V} {TT : Time T} {DR : Diff R}.
Variable target : nat. Hypothesis Htarget : 0 < target.
Local Notation U := (K * V * T * R)%type.
Definition vec_chunk_merger : MergerLaws (D:=K*V) (cm_merge (vec_chunk (K:=K) (V:=V) (T:=T) (R:=R) target)) (cm_extract (vec_chunk target)).
Proof.
  refine (Build_MergerLaws _ _ vchain _ _ _ _ _).
  - split; [constructor|apply consolidated_nil].
  - intros c Hc Hn. split; [constructor; [exact Hn|constructor]|]. cbn [concat]. rewrite app_nil_r. exact Hc.
  - intros c [_ H]. exact H.
  - intros a b Ha Hb. destruct (c39_vec_merge _ _ _ _ _ _ _ _ target Htarget a b Ha Hb) as (o & E & G & _ & W). eauto.
  - intros m up Hm. destruct (c39_vec_extract _ _ _ _ _ _ _ _ target Htarget m up Hm) as (f & r & k & E & C1 & C2 & _ & _ & A1 & B1 & R1 & R2). exists f, r, k.
    split; [exact E|split; [exact C1|split; [exact C2|split; [exact A1|split; [exact B1|split]]]]]; [rewrite R1|rewrite R2]; apply same_weights_refl.
Defined.
(** [seal], which does not fail on such chains *)
Definition vec_chunk_seal (l : list (list U)) (d : Description T) : ChunkBatch (list U) T :=
  match cbb_seal (vec_chunk target) l d with Some b => b | None => {| cb_chunks := l; cb_desc := d |} end.
Lemma vec_chunk_builds : builds (chunk_batch_ops (vec_chunk target)) (cb_contents (fun c => c)) (chunk_laws _ _ _ (vec_laws target Htarget)) (ml_good _ _ vec_chunk_merger) vec_chunk_seal.
Proof.
  intros l d Hl. destruct (c39_build _ _ _ _ _ _ _ _ _ _ (vec_laws target Htarget) l d) as [H _]. destruct H as (b & E & H1 & H2 & H3); [apply vchain_ok; exact Hl|].
  unfold vec_chunk_seal. rewrite E. rewrite rows_id in H2. auto.
Qed.
End Arrange.
(** Arranging a collection with chunks throughout: what a handle reads at times within its reach and before
    the input frontier is the accumulation of the updates received. *)
Theorem c39_arrange_reads : forall (K V T R : Type) (OK : Ord K) (OV : Ord V) (TT : Time T) (DR : Diff R) target, 0 < target ->
  forall full m_len e w, areaches (D:=K*V) (chunk_batch_ops (vec_chunk (K:=K) (V:=V) (T:=T) (R:=R) target)) full (cm_merge (vec_chunk target)) (cm_extract (vec_chunk target)) m_len (vec_chunk_seal target) e w ->
  forall a, In a (live (aw_trace w)) -> exists bx, w_box (aw_trace w) = Some bx /\
  forall d t, beyond (ag_logical a) t -> ~ beyond (aw_front w) t ->
    acc (flat_map (cb_contents (fun c => c)) (map_batches (bx_trace bx))) d t = acc (aw_received w) d t.
Proof.
  intros K V T R OK OV TT DR target Ht full m_len e w HR a Ha.
  exact (c20_arrange_reads _ _ _ _ _ _ _ _ _ _ (chunk_laws _ _ _ (vec_laws target Ht)) full _ _ m_len _ (vec_chunk_merger target Ht) (vec_chunk_builds target Ht) e w HR a Ha).
Qed.
Print Assumptions c39_arrange_reads.

(** ** A concrete case: chunks of at most two updates, with groups of a key and value across them; two
    updates cancel once their times are advanced. *)
Definition c39_l1 : list (list U0) := [[(0, 0, 0, 1%Z); (0, 0, 3, 1%Z)]; [(0, 0, 5, (-2)%Z)]; [(1, 1, 2, 1%Z); (1, 1, 4, 1%Z)]].
Definition c39_l2 : list (list U0) := [[(0, 0, 3, 1%Z)]; [(0, 0, 4, (-1)%Z); (1, 0, 0, 1%Z)]; [(1, 1, 4, (-1)%Z)]].
Definition c39_b1 : ChunkBatch (list U0) nat := {| cb_chunks := c39_l1; cb_desc := {| d_lower := [0]; d_upper := [6]; d_since := [0] |} |}.
Definition c39_b2 : ChunkBatch (list U0) nat := {| cb_chunks := c39_l2; cb_desc := {| d_lower := [6]; d_upper := [8]; d_since := [0] |} |}.
Ltac c39_consolidated := vm_compute; repeat constructor; discriminate.
Lemma c39_graded (l : list (list U0)) : is_graded (vec_chunk (K:=nat) (V:=nat) (T:=nat) (R:=Z) 2) l = true -> graded 2 (map (@length _) l).
Proof. apply (c38_is_graded _ _ (vec_chunk 2) l). Qed.
Example c39_ok1 : cb_ok (vec_chunk 2) (fun _ => True) (fun c => c) c39_b1.
Proof. split; [apply vchain_ok; split; [repeat constructor; discriminate|]|apply c39_graded; reflexivity]. c39_consolidated. Qed.
Example c39_ok2 : cb_ok (vec_chunk 2) (fun _ => True) (fun c => c) c39_b2.
Proof. split; [apply vchain_ok; split; [repeat constructor; discriminate|]|apply c39_graded; reflexivity]. c39_consolidated. Qed.
Example c39_merges : exists m m', cbm_new c39_b1 c39_b2 [5] = Some m /\ work_calls (vec_chunk 2) m c39_b1 c39_b2 [1%Z; 2%Z; 1%Z; 20%Z] = Some m' /\
  exists b, cbm_done (vec_chunk 2) m' = Some b /\ cb_chunks b = [[(1, 0, 5, 1%Z); (1, 1, 5, 1%Z)]].
Proof. eexists _, _. split; [vm_compute; reflexivity|]. split; [vm_compute; reflexivity|]. eexists. split; vm_compute; reflexivity. Qed.
Example c39_chains : exists out, cm_merge (vec_chunk 2) c39_l1 c39_l2 = Some out /\ map (@length _) out = [2; 2; 2] /\
  concat out = [(0, 0, 0, 1%Z); (0, 0, 3, 2%Z); (0, 0, 4, (-1)%Z); (0, 0, 5, (-2)%Z); (1, 0, 0, 1%Z); (1, 1, 2, 1%Z)].
Proof. eexists. split; [vm_compute; reflexivity|]. vm_compute. auto. Qed.
