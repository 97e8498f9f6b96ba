(** * Columnar containers: the chunker, and changes of times *)
From Coq Require Import Arith Lia.
From Verif Require Import Base.Arrays Base.Collections Spec.Collection Spec.ColumnarSpec Spec.ColCollSpec Proofs.ConsolidationP.
From Verif Require Import Model.ColumnarM Model.ColCollM Proofs.ColListsP Proofs.ColTrieP Proofs.ColMeldP Proofs.ColReadP Proofs.ColChunkP Proofs.ColAdvanceP Proofs.ColCollP.
From Verif Require Import Base.Order.

Section Chunker.
Context {K V T R : Type} {OK : Ord K} {OV : Ord V} {TT : Time T} {DR : Diff R}.
Local Notation U := (K * V * T * R)%type.
Local Notation Upd := (Updates K V T R).
Local Notation Rec := (RecordedUpdates K V T R).
Context (srt : list U -> list U) (Hp : forall l, Permutation (srt l) l) (Hs : forall l, key_sorted (A:=K*V*T) (srt l)) (target M : nat) (Ht : 0 < target).
Local Notation "a ~ b" := (same_weights (A:=K*V*T) a b) (at level 70).
Definition rec_of (p : Upd * bool) : Rec := {| ru_updates := fst p; ru_records := 0; ru_consolidated := snd p |}.
Definition blob_rows (p : Upd * bool) : list U := rec_rows (rec_of p).
Definition upd_rows (u : Upd) : list U := blob_rows (u, true).
Definition blob_ok (p : Upd * bool) : Prop := rec_made (rec_of p).
(* a trie that can be shipped *)
Definition ship_ok (lo : nat) (u : Upd) : Prop := exists l, holds u l /\ consolidated (A:=K*V*T) l /\ lo <= length l /\ (length l < 2 * target \/ length l <= M).
Definition tc_held (c : TrieChunker K V T R) : list U := flat_map upd_rows (tc_ready c) ++ flat_map blob_rows (tc_blobs c).
Record tc_inv (lo : nat) (c : TrieChunker K V T R) : Prop := {
  ti_blobs : Forall blob_ok (tc_blobs c);
  ti_records : tc_blob_records c = length (flat_map blob_rows (tc_blobs c));
  ti_small : tc_blob_records c < 2 * target;
  ti_ready : Forall (ship_ok lo) (tc_ready c) }.
Lemma holds_rows u l : holds u l -> upd_rows u = l.
Proof. intros H. unfold upd_rows, blob_rows, rec_rows. cbn [rec_of ru_updates fst]. rewrite (updates_iter_ok _ _ H). reflexivity. Qed.
Lemma blob_len p : blob_ok p -> updates_len (fst p) = length (blob_rows p).
Proof. intros H. apply (rec_len (rec_of p)). exact H. Qed.
Lemma blob_holds u l : holds u l -> consolidated (A:=K*V*T) l -> blob_ok (u, true) /\ blob_rows (u, true) = l.
Proof. intros H HC. apply (made_holds (rec_of (u, true)) l); auto. Qed.
Lemma iter_all_ok ps : Forall blob_ok ps -> iter_all (map fst ps) = Some (flat_map blob_rows ps).
Proof. induction 1 as [|p ps H HF IH]; [reflexivity|]. cbn [map iter_all flat_map]. rewrite IH. pose proof (rec_read _ H) as E. cbn [rec_of ru_updates] in E. rewrite E. reflexivity. Qed.
Lemma consolidate_blobs_ok c : Forall blob_ok (tc_blobs c) -> exists u l, tc_consolidate_blobs srt c = Some u /\ holds u l /\ consolidated (A:=K*V*T) l /\ l ~ flat_map blob_rows (tc_blobs c) /\ length l <= length (flat_map blob_rows (tc_blobs c)).
Proof.
  intros HF. assert (G : exists u l, (l <- iter_all (map fst (tc_blobs c)); form_unsorted srt l) = Some u /\ holds u l /\ consolidated (A:=K*V*T) l /\ l ~ flat_map blob_rows (tc_blobs c) /\ length l <= length (flat_map blob_rows (tc_blobs c))).
  { rewrite (iter_all_ok _ HF). destruct (form_srt srt Hp Hs (flat_map blob_rows (tc_blobs c))) as (u & F & H). exists u, (consolidate (A:=K*V*T) (flat_map blob_rows (tc_blobs c))). split; auto. split; auto. split; [apply consolidate_consolidated|]. split; [apply consolidate_weight|apply consolidate_length]. }
  unfold tc_consolidate_blobs. destruct (tc_blobs c) as [|[u [|]] [|p ps]]; auto. clear G. inversion HF as [|? ? HB _]; subst. pose proof (rec_flag _ HB eq_refl) as HC. destruct (rec_cases _ HB) as [[_ H]|[H _]]; [|discriminate].
  exists u, (blob_rows (u, true)). cbn [flat_map]. rewrite app_nil_r. split; auto. split; auto. split; auto. split; [apply same_weights_refl|auto].
Qed.
Lemma weights_swap (a b : list U) : a ++ b ~ b ++ a.
Proof. apply weight_perm. apply Permutation_app_comm. Qed.
Lemma tc_ship_inv lo c u : tc_inv lo c -> ship_ok lo u -> tc_inv lo (tc_ship c u) /\ tc_held (tc_ship c u) ~ tc_held c ++ upd_rows u.
Proof.
  intros [H1 H2 H3 H4] Hu. split; [split; cbn [tc_ship tc_blobs tc_blob_records tc_ready]; auto; apply Forall_app; auto|].
  unfold tc_held. cbn [tc_ship tc_blobs tc_ready]. rewrite flat_map_app. cbn [flat_map]. rewrite app_nil_r. apply weight_perm. rewrite <- !app_assoc. apply Permutation_app_head. apply Permutation_app_comm.
Qed.
Lemma tc_absorb_inv lo c p : tc_inv lo c -> blob_ok p -> tc_blob_records c + updates_len (fst p) < 2 * target -> tc_inv lo (tc_absorb c (fst p) (snd p)) /\ tc_held (tc_absorb c (fst p) (snd p)) = tc_held c ++ blob_rows p.
Proof.
  intros [H1 H2 H3 H4] Hu HL. destruct p as [u b]. cbn [fst snd] in *. split.
  - split; cbn [tc_absorb tc_blobs tc_blob_records tc_ready]; auto; [apply Forall_app; auto|]. rewrite flat_map_app, app_length, H2. cbn [flat_map]. rewrite app_nil_r. f_equal. exact (blob_len _ Hu).
  - unfold tc_held. cbn [tc_absorb tc_blobs tc_ready]. rewrite flat_map_app. cbn [flat_map]. rewrite app_nil_r, app_assoc. reflexivity.
Qed.
Definition residue (p : option (Upd * bool)) : list U := match p with Some p => blob_rows p | None => [] end.
Lemma ship_or_keep_ok lo c u l c' p : lo <= target -> tc_inv lo c -> holds u l -> consolidated (A:=K*V*T) l -> (length l < 2 * target \/ length l <= M) -> tc_ship_or_keep target c u = (c', p) ->
  tc_inv lo c' /\ tc_held c' ++ residue p ~ tc_held c ++ l /\ tc_blob_records c' = tc_blob_records c /\ tc_blobs c' = tc_blobs c /\ match p with Some p => blob_ok p /\ updates_len (fst p) < target | None => True end.
Proof.
  intros Hlo HI H HC HL. unfold tc_ship_or_keep. pose proof (holds_len _ _ H) as E. rewrite E. destruct (Nat.leb_spec target (length l)) as [L|L]; [|destruct (Nat.ltb_spec 0 (length l)) as [L2|L2]]; intros EQ; injection EQ as <- <-.
  - destruct (tc_ship_inv lo c u HI) as [I W]; [exists l; split; [auto|split; [auto|split; lia]]|]. rewrite (holds_rows _ _ H) in W. split; auto. cbn [residue]. rewrite app_nil_r. auto.
  - destruct (blob_holds _ _ H HC) as [HB ER]. split; auto. cbn [residue fst]. rewrite ER. split; [apply same_weights_refl|]. split; auto. split; auto. split; auto. lia.
  - destruct l; [|cbn in L2; lia]. split; auto. split; [apply same_weights_refl|auto].
Qed.
Lemma absorb_some_ok lo c p : tc_inv lo c -> match p with Some p => blob_ok p /\ tc_blob_records c + updates_len (fst p) < 2 * target | None => True end ->
  tc_inv lo (tc_absorb_some c p) /\ tc_held (tc_absorb_some c p) = tc_held c ++ residue p /\ tc_blob_records (tc_absorb_some c p) = tc_blob_records c + match p with Some p => updates_len (fst p) | None => 0 end.
Proof.
  intros HI HP. destruct p as [[u b]|]; cbn [tc_absorb_some residue].
  - destruct HP as [HB HL]. destruct (tc_absorb_inv lo c (u, b) HI HB HL) as [H1 H2]. split; auto.
  - rewrite app_nil_r. split; auto.
Qed.
Lemma tc_push_ok lo c x : lo <= target -> tc_inv lo c -> rec_made x -> length (rec_rows x) <= M -> exists c', tc_push srt target c x = Some c' /\ tc_inv lo c' /\ tc_held c' ~ tc_held c ++ rec_rows x.
Proof.
  intros Hlo HI HM HL. unfold tc_push. rewrite (rec_len _ HM). destruct x as [u rec flag]. cbn [ru_updates ru_consolidated]. set (rows := rec_rows _) in *.
  assert (HB : blob_ok (u, flag)) by (destruct HM as [HM|HM]; [left|right]; exact HM). assert (EB : blob_rows (u, flag) = rows) by reflexivity.
  destruct (Nat.eqb_spec (length rows) 0) as [E0|E0]. { exists c. split; auto. split; auto. destruct rows; [|discriminate]. rewrite app_nil_r. apply same_weights_refl. }
  destruct (flag && (target <=? length rows)) eqn:EF.
  { apply andb_true_iff in EF as [-> L]. apply Nat.leb_le in L. pose proof (rec_flag _ HM eq_refl) as HC. destruct (rec_cases _ HM) as [[_ H]|[H _]]; [|discriminate]. cbn [ru_updates] in H. fold rows in H, HC.
    destruct (tc_ship_inv lo c u HI) as [I W]; [exists rows; split; [auto|split; [auto|split; lia]]|]. exists (tc_ship c u). split; auto. }
  destruct (Nat.ltb_spec (tc_blob_records c + length rows) (2 * target)) as [L|L].
  { destruct (tc_absorb_inv lo c (u, flag) HI HB) as [I W]; [rewrite (blob_len _ HB), EB; auto|]. cbn [fst snd] in *. eexists. split; [reflexivity|]. split; auto. rewrite W, EB. apply same_weights_refl. }
  assert (S1 : exists c1 p1, (if target <=? length rows then cons <- (if flag then Some u else updates_consolidate srt u); Some (tc_ship_or_keep target c cons) else Some (c, Some (u, flag))) = Some (c1, p1) /\
    tc_inv lo c1 /\ tc_held c1 ++ residue p1 ~ tc_held c ++ rows /\ tc_blob_records c1 = tc_blob_records c /\ tc_blobs c1 = tc_blobs c /\ match p1 with Some p => blob_ok p /\ updates_len (fst p) < target | None => True end).
  { destruct (Nat.leb_spec target (length rows)) as [L1|L1].
    - destruct flag; [cbn in EF; discriminate|]. unfold updates_consolidate. pose proof (rec_read _ HM) as ER. cbn [ru_updates] in ER. rewrite ER. fold rows. unfold form_unsorted. destruct (form_srt srt Hp Hs rows) as (u' & F & H). rewrite F.
      destruct (tc_ship_or_keep target c u') as [c1 p1] eqn:E1. exists c1, p1. split; auto. pose proof (consolidate_length (A:=K*V*T) rows) as LC. destruct (ship_or_keep_ok lo c u' _ c1 p1 Hlo HI H (consolidate_consolidated _)) as (A1 & A2 & A3); [lia|auto|]. split; auto. split; auto.
      eapply same_weights_trans; [exact A2|]. apply same_weights_app; [apply same_weights_refl|apply consolidate_weight].
    - exists c, (Some (u, flag)). split; auto. split; auto. cbn [residue]. rewrite EB. split; [apply same_weights_refl|]. split; auto. split; auto. split; auto. rewrite (blob_len _ HB), EB. auto. }
  destruct S1 as (c1 & p1 & E1 & I1 & W1 & R1 & B1 & P1). rewrite E1. pose proof I1 as [I1b I1r I1s I1y].
  assert (S2 : exists c2 p2, (if target <=? tc_blob_records c1 then cons <- tc_consolidate_blobs srt c1; Some (tc_ship_or_keep target {| tc_blobs := []; tc_blob_records := 0; tc_ready := tc_ready c1 |} cons) else Some (c1, None)) = Some (c2, p2) /\
    tc_inv lo c2 /\ tc_held c2 ++ residue p2 ~ tc_held c1 /\ tc_blob_records c2 + match p2 with Some p => updates_len (fst p) | None => 0 end < target /\ match p2 with Some p => blob_ok p | None => True end).
  { destruct (Nat.leb_spec target (tc_blob_records c1)) as [L2|L2].
    - destruct (consolidate_blobs_ok c1 I1b) as (u' & l & E & H & HC & W & LL). rewrite E. destruct (tc_ship_or_keep target {| tc_blobs := []; tc_blob_records := 0; tc_ready := tc_ready c1 |} u') as [c2 p2] eqn:E2. exists c2, p2. split; auto.
      destruct (ship_or_keep_ok lo {| tc_blobs := []; tc_blob_records := 0; tc_ready := tc_ready c1 |} u' l c2 p2 Hlo) as (A1 & A2 & A3 & A4 & A5); auto; [split; cbn; auto; lia|lia|]. split; auto. split.
      + eapply same_weights_trans; [exact A2|]. unfold tc_held. cbn [tc_ready tc_blobs flat_map]. rewrite app_nil_r. apply same_weights_app; [apply same_weights_refl|exact W].
      + cbn [tc_blob_records] in A3. rewrite A3. destruct p2; [split; [lia|tauto]|split; [lia|auto]].
    - exists c1, None. split; auto. split; auto. cbn [residue]. rewrite app_nil_r. split; [apply same_weights_refl|]. split; [lia|auto]. }
  destruct S2 as (c2 & p2 & E2 & I2 & W2 & R2 & P2). rewrite E2. eexists. split; [reflexivity|].
  destruct (absorb_some_ok lo c2 p1 I2) as (A1 & A2 & A3). { destruct p1; auto. destruct P1. split; auto. lia. }
  destruct (absorb_some_ok lo (tc_absorb_some c2 p1) p2 A1) as (B2 & B3 & B4). { destruct p2; auto. split; auto. rewrite A3. destruct p1; lia. }
  split; auto. rewrite B3, A2. eapply same_weights_trans; [|exact W1]. eapply same_weights_trans; [|apply same_weights_app; [exact W2|apply same_weights_refl]]. rewrite <- !app_assoc. apply same_weights_app; [apply same_weights_refl|apply weights_swap].
Qed.
Definition chunk_ok (lo : nat) (x : ColChunk K V T R) : Prop := col_made x /\ consolidated (A:=K*V*T) (col_rows x) /\ lo <= length (col_rows x) /\ (length (col_rows x) < 2 * target \/ length (col_rows x) <= M).
Lemma ship_chunk lo u : ship_ok lo u -> chunk_ok lo (Resident u) /\ col_rows (Resident u) = upd_rows u.
Proof. intros (l & H & HC & HL & HM). destruct (of_made _ _ (resident_of _ _ H HC)) as [A B]. unfold chunk_ok. rewrite B, (holds_rows _ _ H). split; auto. Qed.
Lemma tc_extract_ok lo c : tc_inv lo c -> match tc_extract c with
  | (c', None) => c' = c /\ tc_ready c = []
  | (c', Some x) => tc_inv lo c' /\ chunk_ok lo x /\ tc_held c = col_rows x ++ tc_held c' /\ tc_blobs c' = tc_blobs c /\ length (tc_ready c) = S (length (tc_ready c')) end.
Proof.
  intros [H1 H2 H3 H4]. unfold tc_extract. destruct (tc_ready c) as [|u ready] eqn:E; [auto|]. inversion H4 as [|? ? Hu H5]; subst. destruct (ship_chunk _ _ Hu) as [A B]. split; [split; auto|]. split; auto. split; [|auto]. unfold tc_held. rewrite E. cbn [flat_map tc_ready tc_blobs]. rewrite B, <- app_assoc. reflexivity.
Qed.
(* what finishing adds to what is ready *)
Lemma tc_settle_ok lo c : 0 < lo <= target -> tc_inv lo c -> exists c1 more, (match tc_blobs c with
        | [] => Some c
        | _ => cons <- tc_consolidate_blobs srt c;
               let c := {| tc_blobs := []; tc_blob_records := 0; tc_ready := tc_ready c |} in
               Some (if 0 <? updates_len cons then tc_ship c cons else c)
        end) = Some c1 /\ tc_blobs c1 = [] /\ tc_blob_records c1 = 0 /\ tc_ready c1 = tc_ready c ++ more /\ Forall (ship_ok 1) more /\ length more <= 1 /\ (tc_blobs c = [] -> more = []) /\ tc_held c1 ~ tc_held c.
Proof.
  intros Hlo [H1 H2 H3 H4]. destruct (tc_blobs c) as [|p ps] eqn:E.
  { exists c, []. rewrite app_nil_r. split; auto. split; auto. split; [rewrite H2; reflexivity|]. split; auto. split; auto. split; auto. split; auto. apply same_weights_refl. }
  destruct (consolidate_blobs_ok c) as (u & l & EC & H & HC & W & LL); [rewrite E; auto|]. rewrite EC, E in *. rewrite (holds_len _ _ H). destruct (Nat.ltb_spec 0 (length l)) as [L|L].
  - eexists _, [u]. split; [reflexivity|]. cbn [tc_ship tc_blobs tc_blob_records tc_ready]. split; auto. split; auto. split; auto. split; [constructor; auto; exists l; split; [auto|split; [auto|split; lia]]|]. split; [cbn; lia|]. split; [discriminate|].
    unfold tc_held. cbn [tc_ship tc_ready tc_blobs]. rewrite E, flat_map_app. cbn [flat_map]. rewrite !app_nil_r, (holds_rows _ _ H). apply same_weights_app; [apply same_weights_refl|exact W].
  - destruct l; [|cbn in L; lia]. eexists _, []. split; [reflexivity|]. cbn [tc_blobs tc_blob_records tc_ready]. rewrite app_nil_r. split; auto. split; auto. split; auto. split; auto. split; auto. split; [discriminate|].
    unfold tc_held. cbn [tc_ready tc_blobs flat_map]. rewrite E. apply same_weights_app; [apply same_weights_refl|exact W].
Qed.
Lemma ship_weaken lo lo' u : lo' <= lo -> ship_ok lo u -> ship_ok lo' u.
Proof. intros HL (l & H1 & H2 & H3 & H4). exists l. split; [auto|split; [auto|split; [lia|auto]]]. Qed.
Lemma tc_finish_ok c : tc_inv 1 c -> exists c' given, tc_finish srt c = Some (c', given) /\ tc_inv 1 c' /\ tc_blobs c' = [] /\ match given with
  | None => tc_ready c' = [] /\ tc_held c ~ []
  | Some x => chunk_ok 1 x /\ tc_held c ~ col_rows x ++ tc_held c' /\ length (tc_ready c') < length (tc_ready c) + match tc_blobs c with [] => 0 | _ => 1 end end.
Proof.
  intros HI. destruct (tc_settle_ok 1 c) as (c1 & more & E & B & R0 & Rd & HF & HL & HN & W); [lia|auto|]. unfold tc_finish. cbv zeta in E |- *. rewrite E.
  assert (I1 : tc_inv 1 c1) by (split; [rewrite B; constructor|rewrite B; cbn; lia|lia|rewrite Rd; apply Forall_app; split; auto; apply (ti_ready _ _ HI)]).
  pose proof (tc_extract_ok 1 c1 I1) as HX. destruct (tc_extract c1) as [c' [x|]]; eexists _, _; (split; [reflexivity|]).
  - destruct HX as (I2 & HC & EH & EB & EL). split; auto. split; [congruence|]. split; auto. rewrite <- EH. split; [apply same_weights_sym; auto|]. rewrite Rd, app_length in EL. destruct (tc_blobs c); [rewrite HN in EL by auto; cbn in EL|]; lia.
  - destruct HX as [-> ER]. split; auto. split; auto. split; auto. apply same_weights_sym. unfold tc_held in W at 1. rewrite ER, B in W. exact W.
Qed.
Lemma tc_run_ok ops : forall c, tc_inv 1 c -> Forall (fun x => rec_made x /\ length (rec_rows x) <= M) (tc_pushed ops) -> exists c' out, tc_run srt target c ops = Some (c', out) /\ tc_inv 1 c' /\ Forall (chunk_ok 1) out /\
  tc_held c ++ flat_map rec_rows (tc_pushed ops) ~ flat_map col_rows out ++ tc_held c'.
Proof.
  induction ops as [|o ops IH]; intros c HI HM; cbn [tc_run]. { exists c, []. split; auto. split; auto. split; auto. cbn. rewrite app_nil_r. apply same_weights_refl. }
  destruct o as [x| |].
  - cbn [tc_pushed flat_map app] in HM |- *. inversion HM as [|? ? [HM1 HM2] HM3]; subst. destruct (tc_push_ok 1 c x) as (c1 & E & I1 & W1); auto. rewrite E. destruct (IH c1 I1 HM3) as (c' & out & E' & I' & HF & W). rewrite E'. exists c', out. split; auto. split; auto. split; auto.
    eapply same_weights_trans; [|exact W]. rewrite app_assoc. apply same_weights_app; [apply same_weights_sym; auto|apply same_weights_refl].
  - pose proof (tc_extract_ok 1 c HI) as HX. destruct (tc_extract c) as [c1 [x|]].
    + destruct HX as (I1 & HC & EH & _). destruct (IH c1 I1 HM) as (c' & out & E' & I' & HF & W). rewrite E'. exists c', (x :: out). split; auto. split; auto. split; auto. rewrite EH. cbn [flat_map]. rewrite <- !app_assoc. apply same_weights_app; [apply same_weights_refl|exact W].
    + destruct HX as [-> _]. destruct (IH c HI HM) as (c' & out & E' & I' & HF & W). rewrite E'. exists c', out. auto.
  - destruct (tc_finish_ok c HI) as (c1 & given & E & I1 & B & HX). rewrite E. destruct (IH c1 I1 HM) as (c' & out & E' & I' & HF & W). rewrite E'. destruct given as [x|].
    + destruct HX as (HC & W1 & _). exists c', (x :: out). split; auto. split; auto. split; auto. cbn [flat_map]. eapply same_weights_trans; [apply same_weights_app; [exact W1|apply same_weights_refl]|]. rewrite <- !app_assoc. apply same_weights_app; [apply same_weights_refl|exact W].
    + destruct HX as [ER W1]. exists c', out. split; auto. split; auto. split; auto. eapply same_weights_trans; [|exact W]. apply same_weights_app; [|apply same_weights_refl]. unfold tc_held at 2. rewrite ER, B. exact W1.
Qed.
Lemma tc_drain_ok fuel : forall c, tc_inv 1 c -> length (tc_ready c) + match tc_blobs c with [] => 0 | _ => 1 end < fuel -> exists c' out, tc_drain srt fuel c = Some (c', out) /\ Forall (chunk_ok 1) out /\ tc_held c ~ flat_map col_rows out /\ tc_ready c' = [] /\ tc_blobs c' = [].
Proof.
  induction fuel as [|fuel IH]; intros c HI HL; [lia|]. cbn [tc_drain]. destruct (tc_finish_ok c HI) as (c1 & given & E & I1 & B & HX). rewrite E. destruct given as [x|].
  - destruct HX as (HC & W & LL). destruct (IH c1 I1) as (c' & out & E' & HF & W' & R'); [rewrite B; lia|]. rewrite E'. exists c', (x :: out). split; auto. split; auto. split; auto. cbn [flat_map]. eapply same_weights_trans; [exact W|]. apply same_weights_app; [apply same_weights_refl|exact W'].
  - destruct HX as [ER W]. exists c1, []. auto.
Qed.
Lemma tc_default_inv lo : tc_inv lo tc_default.
Proof. split; cbn; auto; lia. Qed.
(** ** Sizes, when finishing is last *)
Lemma tc_run_sized ops : (forall o, In o ops -> o <> TFinish) -> forall c, tc_inv target c -> Forall (fun x => rec_made x /\ length (rec_rows x) <= M) (tc_pushed ops) ->
  exists c' out, tc_run srt target c ops = Some (c', out) /\ tc_inv target c' /\ Forall (chunk_ok target) out.
Proof.
  induction ops as [|o ops IH]; intros HO c HI HM; cbn [tc_run]. { exists c, []. auto. }
  assert (HO' : forall o, In o ops -> o <> TFinish) by (intros; apply HO; right; auto).
  destruct o as [x| |].
  - cbn [tc_pushed flat_map app] in HM. inversion HM as [|? ? [HM1 HM2] HM3]; subst. destruct (tc_push_ok target c x) as (c1 & E & I1 & W1); auto. rewrite E. destruct (IH HO' c1 I1 HM3) as (c' & out & E' & I' & HF). rewrite E'. exists c', out. auto.
  - pose proof (tc_extract_ok target c HI) as HX. destruct (tc_extract c) as [c1 [x|]].
    + destruct HX as (I1 & HC & EH & _). destruct (IH HO' c1 I1 HM) as (c' & out & E' & I' & HF). rewrite E'. exists c', (x :: out). auto.
    + destruct HX as [-> _]. destruct (IH HO' c HI HM) as (c' & out & E' & I' & HF). rewrite E'. exists c', out. auto.
  - exfalso. exact (HO TFinish (or_introl eq_refl) eq_refl).
Qed.
Lemma tc_drain_ready fuel : forall c, tc_blobs c = [] -> length (tc_ready c) < fuel -> exists c', tc_drain srt fuel c = Some (c', map Resident (tc_ready c)).
Proof.
  induction fuel as [|fuel IH]; intros c HB HL; [lia|]. cbn [tc_drain]. unfold tc_finish. rewrite HB. unfold tc_extract. destruct (tc_ready c) as [|u ready] eqn:E; [eauto|]. destruct (IH {| tc_blobs := tc_blobs c; tc_blob_records := tc_blob_records c; tc_ready := ready |}) as (c' & E'); [auto|cbn in *; lia|].
  rewrite E'. cbn [tc_ready map]. eauto.
Qed.
Lemma tc_drain_sized fuel c : tc_inv target c -> length (tc_ready c) + 1 < fuel -> exists c' out more, tc_drain srt fuel c = Some (c', out ++ more) /\ Forall (chunk_ok target) out /\ length more <= 1 /\ Forall (chunk_ok 1) more.
Proof.
  intros HI HL. destruct fuel as [|fuel]; [lia|]. destruct (tc_settle_ok target c) as (c1 & more & E & B & R0 & Rd & HF & HLm & HN & W); [lia|auto|].
  assert (ED : tc_drain srt (S fuel) c = tc_drain srt (S fuel) c1).
  { cbn [tc_drain]. unfold tc_finish at 1. cbv zeta in E |- *. rewrite E. unfold tc_finish. rewrite B. reflexivity. }
  rewrite ED. destruct (tc_drain_ready (S fuel) c1 B) as (c' & E'); [rewrite Rd, app_length; lia|]. rewrite Rd, map_app in E'. exists c', (map Resident (tc_ready c)), (map Resident more). split; auto. rewrite map_length. split; [|split; auto].
  - apply Forall_map. eapply Forall_impl; [|apply (ti_ready _ _ HI)]. intros u Hu. apply (ship_chunk _ _ Hu).
  - apply Forall_map. eapply Forall_impl; [|exact HF]. intros u Hu. apply (ship_chunk _ _ Hu).
Qed.
Lemma tc_ready_bound ops : forall c c' out, tc_run srt target c ops = Some (c', out) -> length (tc_ready c') <= length (tc_ready c) + 2 * length ops.
Proof.
  assert (HS : forall (c : TrieChunker K V T R) u c' p, tc_ship_or_keep target c u = (c', p) -> length (tc_ready c') <= S (length (tc_ready c))).
  { intros c u c' p. unfold tc_ship_or_keep. destruct (target <=? updates_len u); [intros EQ; injection EQ as <- <-; cbn; rewrite app_length; cbn; lia|]. destruct (0 <? updates_len u); intros EQ; injection EQ as <- <-; lia. }
  assert (HA : forall (c : TrieChunker K V T R) p, tc_ready (tc_absorb_some c p) = tc_ready c) by (intros c [[u b]|]; reflexivity).
  assert (HX : forall (c : TrieChunker K V T R) c' g, tc_extract c = (c', g) -> length (tc_ready c') <= length (tc_ready c)).
  { intros c c' g. unfold tc_extract. destruct (tc_ready c) eqn:E; intros EQ; injection EQ as <- <-; cbn; rewrite ?E; cbn; lia. }
  induction ops as [|o ops IH]; intros c c' out; cbn [tc_run length]; [intros EQ; injection EQ as <- <-; lia|].
  destruct o as [x| |].
  - destruct (tc_push srt target c x) as [c1|] eqn:E; [|discriminate]. destruct (tc_run srt target c1 ops) as [[c2 rest]|] eqn:E2; [|discriminate]. intros EQ. injection EQ as <- <-. apply IH in E2.
    assert (length (tc_ready c1) <= 2 + length (tc_ready c)); [|lia]. revert E. unfold tc_push. destruct (updates_len (ru_updates x) =? 0); [intros EQ; injection EQ as <-; lia|]. destruct (ru_consolidated x && _); [intros EQ; injection EQ as <-; cbn; rewrite app_length; cbn; lia|].
    destruct (_ <? _); [intros EQ; injection EQ as <-; cbn; lia|].
    match goal with |- context [match ?e with Some _ => _ | None => None end] => destruct e as [[c3 p3]|] eqn:E3; [|discriminate] end.
    match goal with |- context [match ?e with Some _ => _ | None => None end] => destruct e as [[c4 p4]|] eqn:E4; [|discriminate] end. intros EQ. injection EQ as <-. rewrite !HA.
    assert (length (tc_ready c3) <= S (length (tc_ready c))). { clear -E3 HS. destruct (target <=? updates_len (ru_updates x)); [|injection E3 as <- <-; lia]. destruct (if ru_consolidated x then Some (ru_updates x) else updates_consolidate srt (ru_updates x)) as [u|]; [|discriminate]. apply (HS c u c3 p3). congruence. }
    assert (length (tc_ready c4) <= S (length (tc_ready c3))). { clear -E4 HS. destruct (target <=? tc_blob_records c3); [|injection E4 as <- <-; lia]. destruct (tc_consolidate_blobs srt c3) as [u|]; [|discriminate]. apply (HS {| tc_blobs := []; tc_blob_records := 0; tc_ready := tc_ready c3 |} u c4 p4). congruence. } lia.
  - destruct (tc_extract c) as [c1 g] eqn:E. apply HX in E. destruct (tc_run srt target c1 ops) as [[c2 rest]|] eqn:E2; [|discriminate]. intros EQ. injection EQ as <- <-. apply IH in E2. lia.
  - destruct (tc_finish srt c) as [[c1 g]|] eqn:E; [|discriminate]. destruct (tc_run srt target c1 ops) as [[c2 rest]|] eqn:E2; [|discriminate]. intros EQ. injection EQ as <- <-. apply IH in E2.
    assert (length (tc_ready c1) <= S (length (tc_ready c))); [|lia]. revert E. unfold tc_finish. match goal with |- context [match ?e with Some _ => _ | None => None end] => destruct e as [c3|] eqn:E3; [|discriminate] end. intros EQ. injection EQ as EQ. apply HX in EQ. assert (length (tc_ready c3) <= S (length (tc_ready c))); [|lia].
    revert E3. destruct (tc_blobs c); [intros E3; injection E3 as <-; lia|]. destruct (tc_consolidate_blobs srt c) as [cons|]; [|discriminate]. cbv zeta. destruct (0 <? updates_len cons); intros E3; injection E3 as <-; cbn; rewrite ?app_length; cbn; lia.
Qed.
End Chunker.

(** ** Changes of times *)
Section Times.
Context {K V T1 T2 R : Type} {OK : Ord K} {OV : Ord V} {TT1 : Time T1} {TT2 : Time T2} {DR : Diff R}.
Definition at_time (f : T1 -> T2) (x : K * V * T1 * R) : K * V * T2 * R := let '(k, v, t, d) := x in (k, v, f t, d).
Lemma expand_times {A} (f : T1 -> T2) (P : list A) : forall gs, expand P (map (map f) gs) = map (fun x => (fst x, f (snd x))) (expand P gs).
Proof. induction P as [|p P IH]; intros [|g gs]; cbn [expand map]; auto. rewrite map_app, IH, !map_map. reflexivity. Qed.
Lemma map_times_raw (f : T1 -> T2) uk vs ts (us : list (K * V * T1 * R)) : map_times f (raw uk vs ts us) = raw uk vs (map (map f) ts) (map (at_time f) us).
Proof.
  unfold map_times, raw. cbn [u_keys u_vals u_times u_diffs]. rewrite lists_map. f_equal. f_equal. unfold singles. rewrite map_map. apply map_ext. intros [[[k v] t] d]. reflexivity.
Qed.
Lemma map_times_pushed (f : T1 -> T2) (l : list (K * V * T1 * R)) : map_times f (fold_left updates_push l updates_new) = fold_left updates_push (map (at_time f) l) updates_new.
Proof.
  rewrite !push_all_raw, map_times_raw, !map_map. f_equal.
  - f_equal. apply map_ext. intros [[[k v] t] d]. reflexivity.
  - apply map_ext. intros [[[k v] t] d]. reflexivity.
  - apply map_ext. intros [[[k v] t] d]. reflexivity.
Qed.
Lemma map_times_read (f : T1 -> T2) (c : RecordedUpdates K V T1 R) : rec_made c -> updates_iter (map_times f (ru_updates c)) = Some (map (at_time f) (rec_rows c)).
Proof.
  intros H. destruct (rec_cases c H) as [[_ Hh]|[_ ->]]; [|rewrite map_times_pushed; apply push_all_read].
  destruct Hh as (ks & vs & ts & HS & E & P). rewrite E. change (cols ks vs ts (singles (rec_rows c))) with (raw (lists_of (root ks)) vs ts (rec_rows c)). rewrite map_times_raw. apply (iter_raw _ ks); [apply concat_root| |].
  - destruct (shaped_full _ _ _ HS) as [F1 F2 F3 F4]. split; auto; [rewrite map_length; auto|]. apply Forall_map. eapply Forall_impl; [|exact F4]. intros g Hg E2. destruct g; [congruence|discriminate].
  - unfold paths in *. rewrite expand_times, P, !map_map. apply map_ext. intros [[[k v] t] d]. reflexivity.
Qed.
Lemma strictly_sorted_map {A B} {OA : Ord A} {OB : Ord B} (f : A -> B) (l : list A) : (forall a b, lt a b -> lt (f a) (f b)) -> strictly_sorted l -> strictly_sorted (map f l).
Proof.
  intros Hf. induction l as [|x l IH]; intros H; [constructor|]. apply strictly_sorted_cons_inv in H as [H HF]. cbn [map]. destruct l as [|y l]; [constructor|]. cbn [map] in *. constructor; auto. apply Hf. inversion HF; auto.
Qed.
Lemma enter_ok (f : T1 -> T2) (c : RecordedUpdates K V T1 R) : (forall a b, lt a b -> lt (f a) (f b)) -> rec_made c -> rec_made (ru_enter f c) /\ rec_rows (ru_enter f c) = map (at_time f) (rec_rows c).
Proof.
  intros Hf H. destruct (rec_cases c H) as [[HC Hh]|[HF E]]; [|apply made_pushed; [|exact HF]; unfold ru_enter; cbn [ru_updates]; rewrite E at 1; apply map_times_pushed].
  assert (Hn : holds (map_times f (ru_updates c)) (map (at_time f) (rec_rows c))).
  { destruct Hh as (ks & vs & ts & HS & E & P). exists ks, vs, (map (map f) ts). destruct HS as [S1 S2 S3 S4 S5 S6 S7]. split; [split; auto|split].
    - rewrite map_length. auto.
    - apply Forall_map. eapply Forall_impl; [|exact S5]. intros g. apply strictly_sorted_map; auto.
    - apply Forall_map. eapply Forall_impl; [|exact S7]. intros g Hg E2. destruct g; [congruence|discriminate].
    - rewrite E. change (cols ks vs ts (singles (rec_rows c))) with (raw (lists_of (root ks)) vs ts (rec_rows c)). rewrite map_times_raw. reflexivity.
    - unfold paths in *. rewrite expand_times, P, !map_map. apply map_ext. intros [[[k v] t] d]. reflexivity. }
  apply made_holds; auto. apply (holds_consolidated _ _ Hn). apply Forall_map. destruct HC as [_ HC]. eapply Forall_impl; [|exact HC]. intros [[[k v] t] d]. auto.
Qed.
Lemma leave_ok srt (Hp : forall l, Permutation (srt l) l) (Hs : forall l, key_sorted (A:=K*V*T2) (srt l)) (f : T1 -> T2) (c : RecordedUpdates K V T1 R) : rec_made c ->
  exists c', ru_leave srt f c = Some c' /\ rec_made c' /\ ru_consolidated c' = true /\ ru_records c' = ru_records c /\ consolidated (A:=K*V*T2) (rec_rows c') /\ same_weights (A:=K*V*T2) (rec_rows c') (map (at_time f) (rec_rows c)) /\
    length (rec_rows c') <= length (rec_rows c).
Proof.
  intros H. unfold ru_leave, updates_consolidate. rewrite (map_times_read f c H). unfold form_unsorted. destruct (form_srt srt Hp Hs (map (at_time f) (rec_rows c))) as (u & F & Hh). rewrite F. eexists. split; [reflexivity|].
  match goal with |- rec_made ?c' /\ _ => destruct (made_holds c' _ Hh (consolidate_consolidated _)) as [M E] end. rewrite E. split; auto. split; auto. split; auto. split; [apply consolidate_consolidated|]. split; [apply consolidate_weight|]. rewrite <- (map_length (at_time f) (rec_rows c)). apply consolidate_length.
Qed.
End Times.
