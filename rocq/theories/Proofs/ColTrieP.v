(** * What a columnar trie holds; retaining, splitting, iterating *)
From Coq Require Import Arith Lia.
From Verif Require Import Base.Arrays Base.Collections Spec.Collection Model.ColumnarM Proofs.ColListsP Proofs.ColSurveyP.
From Verif Require Import Base.Order.

Section Trie.
Context {K V T R : Type} {OK : Ord K} {OV : Ord V} {TT : Time T} {DR : Diff R}.
Local Notation U := (K * V * T * R)%type.
Local Notation Upd := (Updates K V T R).

Definition root (ks : list K) : list (list K) := match ks with [] => [] | _ => [ks] end.
Definition singles (us : list U) : list (list R) := map (fun x => [snd x]) us.
Definition cols (ks : list K) (vs : list (list V)) (ts : list (list T)) (ds : list (list R)) : Upd :=
  {| u_keys := lists_of (root ks); u_vals := lists_of vs; u_times := lists_of ts; u_diffs := lists_of ds |}.
Definition paths (ks : list K) (vs : list (list V)) (ts : list (list T)) : list (K * V * T) := expand (expand ks vs) ts.
Record shaped (ks : list K) (vs : list (list V)) (ts : list (list T)) : Prop := {
  sh_vals : length vs = length ks;
  sh_times : length ts = length (concat vs);
  sh_keys : strictly_sorted ks;
  sh_vsorted : Forall strictly_sorted vs;
  sh_tsorted : Forall strictly_sorted ts;
  sh_vfull : Forall (fun g => g <> []) vs;
  sh_tfull : Forall (fun g => g <> []) ts }.
(** The trie holds these updates. *)
Definition holds (u : Upd) (us : list U) : Prop :=
  exists ks vs ts, shaped ks vs ts /\ u = cols ks vs ts (singles us) /\ paths ks vs ts = map fst us.

Lemma concat_root ks : concat (root ks) = ks.
Proof. destruct ks; cbn; rewrite ?app_nil_r; reflexivity. Qed.
Lemma concat_singles us : concat (singles us) = map snd us.
Proof. unfold singles. induction us as [|x us IH]; cbn; congruence. Qed.
Lemma ends_singles (ds : list (list R)) : forall a, Forall (fun g => length g = 1) ds -> ends a ds = seq (S a) (length ds).
Proof. induction ds as [|g ds IH]; intros a H; inversion H as [|? ? Hg H2]; subst; cbn [ends seq length]; auto. rewrite Hg, IH by auto. replace (a + 1) with (S a) by lia. reflexivity. Qed.
Lemma singles_one us : Forall (fun g => length g = 1) (singles us).
Proof. unfold singles. apply Forall_map. apply Forall_forall. reflexivity. Qed.
Lemma singles_length us : length (singles us) = length us.
Proof. apply map_length. Qed.
Lemma off_singles us i : i <= length us -> off (singles us) i = i.
Proof. intros H. unfold off, singles. rewrite firstn_map. fold (singles (firstn i us)). rewrite concat_singles, map_length, firstn_length. lia. Qed.
Lemma singles_app a b : singles (a ++ b) = singles a ++ singles b.
Proof. apply map_app. Qed.
Lemma seq_singles us : {| ls_bounds := seq 1 (length us); ls_values := map snd us |} = lists_of (singles us).
Proof. unfold lists_of. rewrite concat_singles, ends_singles by apply singles_one. rewrite singles_length. reflexivity. Qed.

Section Shaped.
Context (ks : list K) (vs : list (list V)) (ts : list (list T)) (HS : shaped ks vs ts).
Lemma vpaths_length : length (expand ks vs) = length (concat vs).
Proof. apply expand_length. symmetry. apply (sh_vals _ _ _ HS). Qed.
Lemma vpaths_ts : length (expand ks vs) = length ts.
Proof. rewrite vpaths_length. symmetry. apply (sh_times _ _ _ HS). Qed.
Lemma paths_length : length (paths ks vs ts) = length (concat ts).
Proof. apply expand_length. apply vpaths_ts. Qed.
Lemma vpaths_sorted : strictly_sorted (expand ks vs).
Proof. apply expand_sorted; apply HS. Qed.
Lemma paths_sorted : strictly_sorted (paths ks vs ts).
Proof. apply expand_sorted; [apply vpaths_sorted|apply HS]. Qed.
Lemma shaped_nil : ts = [] -> ks = [] /\ vs = [].
Proof.
  intros E. pose proof (sh_times _ _ _ HS) as Ht. rewrite E in Ht. cbn in Ht. pose proof (sh_vfull _ _ _ HS) as Hf. pose proof (sh_vals _ _ _ HS) as Hv.
  destruct vs as [|g vs']; [destruct ks; auto; discriminate|]. inversion Hf as [|? ? Hg _]; subst. destruct g; [congruence|]. cbn in Ht. discriminate.
Qed.
Lemma off_vals : off vs (length ks) = length (concat vs).
Proof. apply off_all. pose proof (sh_vals _ _ _ HS). lia. Qed.
Lemma off_times : off ts (length (concat vs)) = length (concat ts).
Proof. apply off_all. pose proof (sh_times _ _ _ HS). lia. Qed.
End Shaped.

Lemma shaped_empty : shaped [] [] [].
Proof. split; auto; constructor. Qed.
Lemma holds_nil : holds updates_new [].
Proof. exists [], [], []. split; [apply shaped_empty|]. split; reflexivity. Qed.
Lemma holds_sorted u us : holds u us -> strictly_sorted (map fst us).
Proof. intros (ks & vs & ts & HS & _ & <-). apply paths_sorted. auto. Qed.
Lemma holds_consolidated u us : holds u us -> Forall (fun x => is_zero (snd x) = false) us -> consolidated (A:=K*V*T) us.
Proof. intros H HF. split; auto. eapply holds_sorted; eauto. Qed.
Lemma holds_len u us : holds u us -> updates_len u = length us.
Proof. intros (ks & vs & ts & HS & -> & _). unfold updates_len. cbn [u_diffs cols]. change (ls_values (lists_of (singles us))) with (concat (singles us)). rewrite concat_singles, map_length. reflexivity. Qed.
(** A trie is determined by what it holds. *)
Lemma shaped_unique ks vs ts ks' vs' ts' : shaped ks vs ts -> shaped ks' vs' ts' -> paths ks vs ts = paths ks' vs' ts' -> ks = ks' /\ vs = vs' /\ ts = ts'.
Proof.
  intros H H' E. unfold paths in E. destruct (expand_inj _ _ _ _ (strictly_sorted_nodup _ (vpaths_sorted _ _ _ H)) (strictly_sorted_nodup _ (vpaths_sorted _ _ _ H')) (vpaths_ts _ _ _ H) (vpaths_ts _ _ _ H') (sh_tfull _ _ _ H) (sh_tfull _ _ _ H') E) as [E1 E2].
  destruct (expand_inj _ _ _ _ (strictly_sorted_nodup _ (sh_keys _ _ _ H)) (strictly_sorted_nodup _ (sh_keys _ _ _ H')) (eq_sym (sh_vals _ _ _ H)) (eq_sym (sh_vals _ _ _ H')) (sh_vfull _ _ _ H) (sh_vfull _ _ _ H') E1) as [E3 E4]. auto.
Qed.
Lemma holds_unique u u' us : holds u us -> holds u' us -> u = u'.
Proof.
  intros (ks & vs & ts & HS & -> & E) (ks' & vs' & ts' & HS' & -> & E'). rewrite <- E' in E. destruct (shaped_unique _ _ _ _ _ _ HS HS' E) as (-> & -> & ->). reflexivity.
Qed.

(** ** Retaining *)
Lemma choose_all {X} (l : list X) : choose l (map (fun _ => true) l) = l.
Proof. rewrite choose_map. induction l; cbn; congruence. Qed.
Lemma filter_full {X} (gs : list (list X)) : Forall (fun g => g <> []) (filter nonemptyb gs).
Proof. apply Forall_forall. intros g Hg. apply filter_In in Hg as [_ Hg]. destruct g; [discriminate|discriminate]. Qed.
Lemma filter_Forall {X} (P : X -> Prop) f (l : list X) : Forall P l -> Forall P (filter f l).
Proof. intros H. rewrite Forall_forall in *. intros x Hx. apply filter_In in Hx as [Hx _]. auto. Qed.
Lemma retain_chain ks vs ts keep : shaped ks vs ts -> length keep = length (concat ts) ->
  exists ks' vs' ts' tk vk kk, retain_items (lists_of ts) keep = Some (lists_of ts', tk) /\ retain_items (lists_of vs) tk = Some (lists_of vs', vk) /\
    retain_items (lists_of (root ks)) vk = Some (lists_of (root ks'), kk) /\ shaped ks' vs' ts' /\ paths ks' vs' ts' = choose (paths ks vs ts) keep.
Proof.
  intros HS HL. set (tk := map nonemptyb (kept_groups ts keep)). set (vk := map nonemptyb (kept_groups vs tk)).
  assert (Htk : length tk = length (concat vs)) by (unfold tk; rewrite map_length, kept_length; apply HS).
  assert (Hvk : length vk = length ks) by (unfold vk; rewrite map_length, kept_length; apply HS).
  assert (Hk : retain_items (lists_of (root ks)) vk = Some (lists_of (root (choose ks vk)), map nonemptyb (kept_groups (root ks) vk))).
  { rewrite retain_items_ok by (rewrite concat_root; auto). do 3 f_equal. destruct ks as [|k ks]; [reflexivity|]. cbn [root kept_groups]. rewrite firstn_all2 by (cbn in *; lia).
    cbn [filter]. destruct (choose (k :: ks) vk); reflexivity. }
  assert (Ev : expand (choose ks vk) (filter nonemptyb (kept_groups vs tk)) = choose (expand ks vs) tk) by (apply expand_choose; [symmetry; apply HS|auto]).
  assert (Lv : length (choose ks vk) = length (filter nonemptyb (kept_groups vs tk))) by (apply choose_length_kept; symmetry; apply HS).
  exists (choose ks vk), (filter nonemptyb (kept_groups vs tk)), (filter nonemptyb (kept_groups ts keep)), tk, vk. eexists.
  split; [apply retain_items_ok; auto|]. split; [apply retain_items_ok; auto|]. split; [exact Hk|]. split; [|unfold paths; rewrite Ev; apply expand_choose; auto; apply vpaths_ts; auto].
  split.
  - symmetry. auto.
  - rewrite <- (expand_length (choose ks vk)) by auto. rewrite Ev. symmetry. apply choose_length_kept. apply vpaths_ts. auto.
  - apply choose_sorted. apply HS.
  - apply filter_Forall, kept_sorted, HS.
  - apply filter_Forall, kept_sorted, HS.
  - apply filter_full.
  - apply filter_full.
Qed.
Lemma retain_ok u us bm : holds u us -> length bm = length us -> exists u', retain u bm = Some u' /\ holds u' (choose us bm).
Proof.
  intros (ks & vs & ts & HS & -> & E) HL. assert (Hp : length (map fst us) = length (concat ts)) by (rewrite <- E; apply paths_length; auto). rewrite map_length in Hp.
  destruct (retain_chain ks vs ts bm HS) as (ks' & vs' & ts' & tk & vk & kk & E1 & E2 & E3 & HS' & E4); [lia|].
  unfold retain. cbn [cols u_keys u_vals u_times u_diffs]. rewrite E1, E2, E3. change (ls_values (lists_of (singles us))) with (concat (singles us)). rewrite concat_singles.
  rewrite slice_ok by (rewrite ?map_length; lia). rewrite HL. replace (length us) with (length (map snd us)) by apply map_length. rewrite sub_all. eexists. split; [reflexivity|].
  assert (E5 : paths ks' vs' ts' = map fst (choose us bm)) by (rewrite E4, E, choose_map_l; reflexivity).
  exists ks', vs', ts'. split; auto. split; auto. unfold cols. f_equal. fold (choose (map snd us) bm). rewrite choose_map_l. rewrite <- seq_singles. f_equal. f_equal.
  change (ls_values (lists_of ts')) with (concat ts'). rewrite <- (paths_length _ _ _ HS'), E5, map_length. reflexivity.
Qed.
Lemma choose_firstn {X} n : forall (l : list X) s, choose l (map (fun i => i <? n) (seq s (length l))) = firstn (n - s) l.
Proof.
  induction l as [|x l IH]; intros s; cbn [length seq map]; [rewrite firstn_nil; reflexivity|]. rewrite choose_cons, IH. destruct (Nat.ltb_spec s n).
  - replace (n - s) with (S (n - S s)) by lia. reflexivity.
  - replace (n - S s) with 0 by lia. replace (n - s) with 0 by lia. reflexivity.
Qed.
Lemma choose_skipn {X} n : forall (l : list X) s, choose l (map negb (map (fun i => i <? n) (seq s (length l)))) = skipn (n - s) l.
Proof.
  induction l as [|x l IH]; intros s; cbn [length seq map]; [rewrite skipn_nil; reflexivity|]. rewrite choose_cons, IH. destruct (Nat.ltb_spec s n); cbn [negb].
  - replace (n - s) with (S (n - S s)) by lia. reflexivity.
  - replace (n - S s) with 0 by lia. replace (n - s) with 0 by lia. reflexivity.
Qed.
Lemma split_at_ok u us n : holds u us -> exists a b, split_at u n = Some (a, b) /\ holds a (firstn n us) /\ holds b (skipn n us).
Proof.
  intros H. unfold split_at. rewrite (holds_len _ _ H). destruct (Nat.eqb_spec n 0) as [->|Hn]; [eexists _, _; split; [reflexivity|]; split; [apply holds_nil|exact H]|].
  destruct (Nat.leb_spec (length us) n) as [L|L]; [eexists _, _; split; [reflexivity|]; rewrite firstn_all2, skipn_all2 by auto; split; [exact H|apply holds_nil]|].
  destruct (retain_ok u us (map (fun i => i <? n) (seq 0 (length us))) H) as (a & Ea & Ha); [rewrite map_length, seq_length; auto|].
  destruct (retain_ok u us (map negb (map (fun i => i <? n) (seq 0 (length us)))) H) as (b & Eb & Hb); [rewrite !map_length, seq_length; auto|].
  rewrite Ea, Eb. rewrite choose_firstn, Nat.sub_0_r in Ha. rewrite choose_skipn, Nat.sub_0_r in Hb. eauto.
Qed.

(** ** Lists of differences that are empty *)
Lemma full_singles (ds : list (list R)) : Forall (fun g => length g <= 1) ds -> length (concat ds) = length ds -> Forall (fun g => length g = 1) ds.
Proof.
  assert (L : forall gs : list (list R), Forall (fun g => length g <= 1) gs -> length (concat gs) <= length gs).
  { induction 1; cbn; auto. rewrite app_length. lia. }
  induction 1 as [|g ds Hg H IH]; intros E; constructor; cbn in E; rewrite app_length in E; specialize (L ds H); [lia|apply IH; lia].
Qed.
Lemma expand_singles (P : list (K * V * T)) (ds : list (list R)) : length P = length ds -> Forall (fun g => length g = 1) ds -> map fst (expand P ds) = P /\ singles (expand P ds) = ds.
Proof.
  revert ds; induction P as [|p P IH]; intros [|g ds] HL HF; cbn in HL; try lia; auto. inversion HF as [|? ? Hg HF2]; subst. destruct g as [|x [|]]; cbn in Hg; try lia.
  destruct (IH ds) as [I1 I2]; auto. cbn. unfold singles in I2. rewrite I1, I2. auto.
Qed.
Lemma choose_nonempty (P : list (K * V * T)) (ds : list (list R)) : length P = length ds -> Forall (fun g => length g <= 1) ds ->
  choose P (map nonemptyb ds) = map fst (expand P ds) /\ length (concat ds) = length (expand P ds) /\ map snd (expand P ds) = concat ds.
Proof.
  intros HL HF. split; [|split; [symmetry; apply expand_length; auto|apply expand_snd; auto]]. revert ds HL HF; induction P as [|p P IH]; intros [|g ds] HL HF; cbn in HL; try lia; auto. inversion HF as [|? ? Hg HF2]; subst.
  cbn [map expand]. rewrite choose_cons, IH by auto. destruct g as [|x [|]]; cbn in *; try lia; auto.
Qed.
Lemma expand_fst_sorted (P : list (K * V * T)) (ds : list (list R)) : strictly_sorted P -> Forall (fun g => length g <= 1) ds -> strictly_sorted (map fst (expand P ds)).
Proof.
  revert ds; induction P as [|p P IH]; intros [|g ds] HP HF; cbn; try constructor. apply strictly_sorted_cons_inv in HP as [HP HPF]. inversion HF as [|? ? Hg HF2]; subst. specialize (IH ds HP HF2).
  destruct g as [|x [|]]; cbn in *; try lia; auto. apply strictly_sorted_cons; auto. apply Forall_forall. intros y Hy. apply in_map_iff in Hy as ([y' r] & <- & Hy). apply in_expand in Hy as [Hy _].
  rewrite Forall_forall in HPF. auto.
Qed.
Lemma nonempty_lists_ok (ds : list (list R)) n : forall i, i + n = length ds -> nonempty_lists (ls_bounds (lists_of ds)) (seq i n) = Some (map nonemptyb (skipn i ds)).
Proof.
  induction n as [|n IH]; intros i H; cbn [seq nonempty_lists]; [rewrite skipn_all2 by lia; reflexivity|].
  destruct (get_some ds i) as (g & Eg); [lia|]. rewrite child_range_ok by lia. rewrite IH by lia. rewrite (skipn_get ds i g Eg). cbn [map]. rewrite (off_S ds i g Eg).
  replace (off ds i <? off ds i + length g) with (nonemptyb g); [reflexivity|]. destruct g; cbn [nonemptyb length]; symmetry; [apply Nat.ltb_ge|apply Nat.ltb_lt]; lia.
Qed.
Lemma strided_ok (ds : list (list R)) : forall a, forallb (fun x => fst x =? snd x) (List.combine (ends a ds) (seq (S a) (length ds))) = true -> Forall (fun g => length g = 1) ds.
Proof.
  induction ds as [|g ds IH]; intros a H; constructor; cbn [ends length seq List.combine forallb] in H; apply andb_prop in H as [H1 H2]; apply Nat.eqb_eq in H1; cbn in H1; [lia|].
  apply (IH (S a)). rewrite H1 in H2. exact H2.
Qed.
Lemma without_empty_ok ks vs ts ds : shaped ks vs ts -> length ds = length (concat ts) -> Forall (fun g => length g <= 1) ds ->
  exists u', without_empty (cols ks vs ts ds) = Some u' /\ holds u' (expand (paths ks vs ts) ds).
Proof.
  intros HS HL HF. assert (Hp : length (paths ks vs ts) = length ds) by (rewrite paths_length; auto).
  assert (Good : Forall (fun g => length g = 1) ds -> holds (cols ks vs ts ds) (expand (paths ks vs ts) ds)).
  { intros H1. destruct (expand_singles _ ds Hp H1) as [E1 E2]. exists ks, vs, ts. rewrite E1, E2. auto. }
  unfold without_empty. cbn [cols u_diffs u_times]. change (ls_values (lists_of ds)) with (concat ds). change (ls_values (lists_of ts)) with (concat ts).
  destruct (Nat.eqb_spec (length (concat ds)) (length (concat ts))) as [E|E]; [eexists; split; [reflexivity|]; apply Good, full_singles; auto; lia|].
  unfold filter_zero. cbn [cols u_diffs u_times u_vals u_keys]. destruct (strided_one (ls_bounds (lists_of ds))) eqn:Es.
  - eexists; split; [reflexivity|]. apply Good. unfold strided_one in Es. change (ls_bounds (lists_of ds)) with (ends 0 ds) in Es. rewrite ends_length in Es. eapply strided_ok; eauto.
  - change (ls_values (lists_of ts)) with (concat ts). rewrite <- HL, (nonempty_lists_ok ds (length ds) 0) by reflexivity. cbn [skipn].
    destruct (retain_chain ks vs ts (map nonemptyb ds) HS) as (ks' & vs' & ts' & tk & vk & kk & E1 & E2 & E3 & HS' & E4); [rewrite map_length; auto|].
    rewrite E1, E2, E3. eexists. split; [reflexivity|]. destruct (choose_nonempty _ ds Hp HF) as (C1 & C2 & C3).
    exists ks', vs', ts'. split; auto. split; [|rewrite E4; auto]. unfold cols. f_equal. rewrite <- seq_singles. change (ls_values (lists_of ds)) with (concat ds). rewrite C2, C3. reflexivity.
Qed.
End Trie.
