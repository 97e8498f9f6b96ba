(** * Columnar chunks: advancing times *)
From Coq Require Import Arith Lia.
From Verif Require Import Base.Arrays Base.Collections Spec.Collection Spec.ColumnarSpec Proofs.ConsolidationP Proofs.PackP Proofs.ChunkP Proofs.VecChunkP Proofs.ChunkBatchP.
From Verif Require Import Model.ColumnarM Proofs.ColListsP Proofs.ColSurveyP Proofs.ColTrieP Proofs.ColMeldP Proofs.ColReadP Proofs.ColChunkP.
From Verif Require Import Base.Order.

(** ** Nested lists *)
Section Nest.
Context {A X Y : Type}.
Implicit Types (l : list (A * list (X * Y))).
Definition ungroup l : list (A * X * Y) := flat_map (fun p => map (fun y => (fst p, fst y, snd y)) (snd p)) l.
Definition labels l : list (list X) := map (fun p => map fst (snd p)) l.
Lemma ungroup_cons a g l : ungroup ((a, g) :: l) = map (fun y => (a, fst y, snd y)) g ++ ungroup l.
Proof. reflexivity. Qed.
Lemma labels_cons a g l : labels ((a, g) :: l) = map fst g :: labels l.
Proof. reflexivity. Qed.
Lemma ungroup_app l1 l2 : ungroup (l1 ++ l2) = ungroup l1 ++ ungroup l2.
Proof. apply flat_map_app. Qed.
Lemma ungroup_paths l : expand (map fst l) (labels l) = map fst (ungroup l).
Proof. induction l as [|[a g] l IH]; [reflexivity|]. rewrite ungroup_cons, labels_cons. cbn [map expand fst]. rewrite map_app, IH, !map_map. reflexivity. Qed.
Lemma ungroup_nest (P : list A) : forall (gs : list (list X)) (us : list (A * X * Y)), length P = length gs -> expand P gs = map fst us ->
  exists l, P = map fst l /\ gs = labels l /\ us = ungroup l.
Proof.
  induction P as [|p P IH]; intros [|g gs] us HL E; cbn in HL; try lia; [exists []; destruct us; [auto|discriminate]|]. cbn [expand] in E.
  assert (E1 : map (pair p) g = map fst (firstn (length g) us)).
  { rewrite <- firstn_map, <- E. rewrite <- (map_length (pair p) g), firstn_app, Nat.sub_diag, firstn_all, firstn_O, app_nil_r. reflexivity. }
  assert (E2 : expand P gs = map fst (skipn (length g) us)).
  { rewrite <- skipn_map, <- E. rewrite <- (map_length (pair p) g), skipn_app, Nat.sub_diag, skipn_all. reflexivity. }
  destruct (IH gs (skipn (length g) us)) as (l & H1 & H2 & H3); auto.
  exists ((p, map (fun u => (snd (fst u), snd u)) (firstn (length g) us)) :: l). cbn [map fst snd labels ungroup flat_map]. rewrite <- H1. split; auto. unfold labels in H2. rewrite <- H2. split.
  - f_equal. rewrite map_map. cbn. apply (f_equal (map snd)) in E1. rewrite !map_map in E1. cbn in E1. rewrite map_id in E1. exact E1.
  - unfold ungroup in H3. rewrite <- H3. rewrite <- (firstn_skipn (length g) us) at 1. f_equal. rewrite map_map. cbn [fst snd]. clear -E1. revert E1. generalize (firstn (length g) us). intros l. clear us.
    revert g; induction l as [|[[a x] y] l IH]; intros [|x' g] E1; cbn in *; try discriminate; auto. injection E1 as -> -> E1. f_equal. eapply IH; eauto.
Qed.
Lemma ungroup_filter l : ungroup (filter (fun p => nonemptyb (snd p)) l) = ungroup l.
Proof. induction l as [|[a g] l IH]; [reflexivity|]. destruct g as [|y g]; cbn [filter nonemptyb snd]; [exact IH|]. rewrite !ungroup_cons, IH. reflexivity. Qed.
Lemma labels_concat l : concat (labels l) = map (fun x => snd (fst x)) (ungroup l).
Proof. induction l as [|[a g] l IH]; [reflexivity|]. rewrite ungroup_cons, labels_cons. cbn [concat]. rewrite map_app, !map_map. cbn [fst snd]. f_equal. exact IH. Qed.
Lemma off_labels l : forall i, off (labels l) i = off (map (fun p => map (fun y => (fst p, fst y, snd y)) (snd p)) l) i.
Proof.
  unfold off. induction l as [|[a g] l IH]; intros [|i]; try reflexivity. rewrite labels_cons. cbn [map firstn concat fst snd]. rewrite !app_length, !map_length, IH. reflexivity.
Qed.
Lemma sub_ungroup l i a g : nth_error l i = Some (a, g) -> sub (ungroup l) (off (labels l) i) (off (labels l) (S i)) = map (fun y => (a, fst y, snd y)) g.
Proof.
  intros H. unfold ungroup. rewrite flat_map_concat_map, !off_labels. apply sub_group. rewrite nth_error_map, H. reflexivity.
Qed.
End Nest.

Section Advance.
Context {K V T R : Type} {OK : Ord K} {OV : Ord V} {TT : Time T} {DR : Diff R}.
Local Notation U := (K * V * T * R)%type.
Local Notation Upd := (Updates K V T R).
Local Notation Chk := (ColChunk K V T R).
Local Notation Run := (list (T * R)).

(** ** The consolidation of the times of a value *)
Lemma run_sort_ok (l : Run) : run_sort l = isort (A:=T) l.
Proof. reflexivity. Qed.
Lemma run_merge_ok (l : Run) : forall t d, run_merge t d l = compact_go (A:=T) (t, d) l.
Proof.
  induction l as [|[t2 d2] l IH]; intros t d; cbn [run_merge compact_go fst snd]; [unfold keep_nonzero; cbn; destruct (is_zero d); reflexivity|].
  destruct (eqb t2 t); rewrite IH; auto. unfold keep_nonzero. cbn. destruct (is_zero d); reflexivity.
Qed.
Lemma run_consolidate_ok (l : Run) : run_consolidate l = consolidate (A:=T) l.
Proof. unfold run_consolidate, consolidate. rewrite run_sort_ok. destruct (isort l) as [|[t d] l']; [reflexivity|]. apply run_merge_ok. Qed.

(** ** A trie as nested lists *)
Local Notation Nst := (list (K * list (V * Run))).
Definition trie_of_nest (N : Nst) : Upd :=
  cols (map fst N) (labels N) (labels (ungroup N)) (singles (ungroup (ungroup N))).
Record well_nested (N : Nst) : Prop := {
  wn_keys : strictly_sorted (map fst N);
  wn_vals : Forall (fun p => snd p <> [] /\ strictly_sorted (map fst (snd p))) N;
  wn_times : Forall (fun p => snd p <> [] /\ strictly_sorted (map fst (snd p))) (ungroup N) }.
Lemma nest_shaped N : well_nested N -> shaped (map fst N) (labels N) (labels (ungroup N)).
Proof.
  intros [H1 H2 H3]. split; auto.
  - unfold labels. rewrite !map_length. reflexivity.
  - rewrite labels_concat. unfold labels. rewrite !map_length. reflexivity.
  - unfold labels. apply Forall_map. eapply Forall_impl; [|exact H2]. cbn. tauto.
  - unfold labels. apply Forall_map. eapply Forall_impl; [|exact H3]. cbn. tauto.
  - unfold labels. apply Forall_map. eapply Forall_impl; [|exact H2]. cbn. intros p [Hp _]. destruct (snd p); [congruence|discriminate].
  - unfold labels. apply Forall_map. eapply Forall_impl; [|exact H3]. cbn. intros p [Hp _]. destruct (snd p); [congruence|discriminate].
Qed.
Lemma nest_holds N : well_nested N -> holds (trie_of_nest N) (ungroup (ungroup N)).
Proof.
  intros H. exists (map fst N), (labels N), (labels (ungroup N)). split; [apply nest_shaped; auto|]. split; auto. unfold paths. rewrite ungroup_paths. apply ungroup_paths.
Qed.
Lemma holds_nest u us : holds u us -> exists N, u = trie_of_nest N /\ us = ungroup (ungroup N) /\ well_nested N.
Proof.
  intros (ks & vs & ts & HS & -> & E). destruct (ungroup_nest (expand ks vs) ts us (vpaths_ts _ _ _ HS) E) as (M & E1 & -> & ->).
  destruct (ungroup_nest ks vs M) as (N & -> & -> & ->); [symmetry; apply (sh_vals _ _ _ HS)|auto|]. exists N. split; [reflexivity|]. split; auto. split.
  - apply HS.
  - pose proof (sh_vfull _ _ _ HS) as F. pose proof (sh_vsorted _ _ _ HS) as S. unfold labels in F, S. rewrite Forall_map in F, S. rewrite Forall_forall in *. intros p Hp. split; [|apply S; auto]. intros E2. apply (F p Hp). rewrite E2. reflexivity.
  - pose proof (sh_tfull _ _ _ HS) as F. pose proof (sh_tsorted _ _ _ HS) as S. unfold labels in F, S. rewrite Forall_map in F, S. rewrite Forall_forall in *. intros p Hp. split; [|apply S; auto]. intros E2. apply (F p Hp). rewrite E2. reflexivity.
Qed.

(** ** The loops *)
Section Loops.
Variable frontier : list T.
Definition adv_run (g : Run) : Run := consolidate (A:=T) (map (fun x => (advance_by (fst x) frontier, snd x)) g).
Definition adv_group (g : list (V * Run)) : list (V * Run) := filter (fun p => nonemptyb (snd p)) (map (fun p => (fst p, adv_run (snd p))) g).
Definition adv_nest (N : Nst) : Nst := filter (fun p => nonemptyb (snd p)) (map (fun p => (fst p, adv_group (snd p))) N).
Variable N : Nst.
Local Notation M := (ungroup N).
Local Notation us := (ungroup M).
Local Notation u := (trie_of_nest N).
Lemma gather_ok (g : Run) : forall j n kv, n = length g -> sub us j (j + n) = map (fun y => (kv, fst y, snd y)) g -> j + n <= length us ->
  gather_times dzero u frontier (seq j n) = Some (map (fun x => (advance_by (fst x) frontier, snd x)) g).
Proof.
  induction g as [|[t r] g IH]; intros j n kv -> HS HL; [reflexivity|]. cbn [length] in *. cbn [seq gather_times map fst snd].
  destruct (get_some us j) as (y & Ey); [lia|]. unfold get in Ey. rewrite (sub_cons us j (j + S (length g)) y Ey) in HS by lia. cbn [map fst snd] in HS. injection HS as -> HS.
  assert (Ht : get (ls_values (u_times u)) j = Some t).
  { unfold get. cbn [trie_of_nest cols u_times lists_of ls_values]. rewrite labels_concat, nth_error_map, Ey. reflexivity. }
  rewrite Ht. unfold trie_of_nest at 1, cols at 1. cbn [u_diffs]. rewrite child_range_ok by (rewrite singles_length; lia). rewrite !off_singles by lia.
  assert (Hr : gather_diffs (ls_values (u_diffs u)) (range j (S j)) dzero = Some r).
  { unfold range. replace (S j - j) with 1 by lia. cbn [seq gather_diffs trie_of_nest cols u_diffs lists_of ls_values]. unfold get. rewrite concat_singles, nth_error_map, Ey. cbn. rewrite dplus_0_l. reflexivity. }
  rewrite Hr. rewrite (IH (S j) (length g) kv); auto; [|lia]. replace (S j + length g) with (j + S (length g)) by lia. auto.
Qed.
(* what has been written: the nested lists, and those of the present key *)
Definition wrote (N0 : Nst) (key : K) (g : list (V * Run)) : Upd :=
  {| u_keys := open_of [] (map fst N0 ++ (if nonemptyb g then [key] else [])); u_vals := open_of (labels N0) (map fst g);
     u_times := lists_of (labels (ungroup (N0 ++ [(key, g)]))); u_diffs := lists_of (singles (ungroup (ungroup (N0 ++ [(key, g)])))) |}.
Lemma wrote_nil N0 k k' : wrote N0 k [] = wrote N0 k' [].
Proof. unfold wrote. rewrite !ungroup_app. reflexivity. Qed.
Lemma push_diffs (g : Run) kv : forall rows : list U, fold_left (fun l x => seal_list (push_value l (snd x))) g (lists_of (singles rows)) = lists_of (singles (rows ++ map (fun y => (kv, fst y, snd y)) g)).
Proof.
  induction g as [|[t r] g IH]; intros rows; cbn [fold_left map]; [rewrite app_nil_r; reflexivity|].
  replace (seal_list (push_value (lists_of (singles rows)) (snd (t, r)))) with (lists_of (singles (rows ++ [(kv, t, r)]))); [rewrite IH, <- app_assoc; reflexivity|].
  rewrite lists_open, (lists_open (singles rows)), push_value_open, seal_open, lists_open. unfold singles. rewrite map_app. reflexivity.
Qed.
Lemma group_get j kv g : nth_error M j = Some (kv, g) -> j < length (labels M) /\ get (ls_values (u_vals u)) j = Some (snd kv) /\ off (labels M) (S j) = off (labels M) j + length g /\ off (labels M) (S j) <= length us /\
  sub us (off (labels M) j) (off (labels M) (S j)) = map (fun y => (kv, fst y, snd y)) g.
Proof.
  intros H. assert (L : nth_error (labels M) j = Some (map fst g)) by (unfold labels; rewrite nth_error_map, H; reflexivity).
  split; [apply nth_error_Some; congruence|]. split; [unfold get; cbn [trie_of_nest cols u_vals lists_of ls_values]; rewrite labels_concat, nth_error_map, H; reflexivity|].
  split; [rewrite (off_S _ _ _ L), map_length; reflexivity|]. split; [|apply sub_ungroup; auto]. pose proof (off_le (labels M) (S j)) as O. rewrite labels_concat, map_length in O. exact O.
Qed.
Lemma advance_vals_ok key (vrs : list (V * Run)) : forall j g N0, sub M j (j + length vrs) = map (fun y => (key, fst y, snd y)) vrs -> j + length vrs <= length M ->
  advance_vals dzero u frontier key (nonemptyb g) (seq j (length vrs)) (wrote N0 key g) = Some (nonemptyb (g ++ adv_group vrs), wrote N0 key (g ++ adv_group vrs)).
Proof.
  induction vrs as [|[v run] vrs IH]; intros j g N0 HS HL; [cbn; rewrite app_nil_r; reflexivity|]. cbn [length] in *. cbn [seq advance_vals].
  destruct (get_some M j) as (y & Ey); [lia|]. unfold get in Ey. rewrite (sub_cons M j (j + S (length vrs)) y Ey) in HS by lia. cbn [map fst snd] in HS. injection HS as -> HS.
  destruct (group_get _ _ _ Ey) as (L1 & L2 & L3 & L4 & L5). cbn [snd] in L2. cbn [trie_of_nest cols u_times] in L1 |- *. rewrite child_range_ok by auto.
  assert (G : gather_times dzero u frontier (range (off (labels M) j) (off (labels M) (S j))) = Some (map (fun x => (advance_by (fst x) frontier, snd x)) run)).
  { unfold range. rewrite L3, Nat.add_comm, Nat.add_sub. apply (gather_ok run _ _ (key, v)); auto; rewrite <- L3; auto. }
  cbn [trie_of_nest cols] in G. rewrite G, run_consolidate_ok. fold (adv_run run).
  specialize (IH (S j)). replace (S j + length vrs) with (j + S (length vrs)) in IH by lia. unfold adv_group. cbn [map filter fst snd].
  destruct (adv_run run) as [|x run'] eqn:Er; cbn [nonemptyb].
  - cbn [trie_of_nest cols] in IH. apply IH; auto.
  - cbn [trie_of_nest cols] in IH, L2. cbn [u_vals] in L2 |- *. rewrite L2.
    specialize (IH (g ++ [(v, x :: run')]) N0 HS HL). rewrite <- app_assoc in IH. cbn [app] in IH. fold (adv_group vrs). rewrite <- IH.
    replace (nonemptyb (g ++ [(v, x :: run')])) with true by (destruct g; reflexivity). f_equal. unfold wrote. cbn [u_keys u_vals u_times u_diffs]. replace (nonemptyb (g ++ [(v, x :: run')])) with true by (destruct g; reflexivity). f_equal.
    + destruct g; cbn [nonemptyb]; auto. rewrite app_nil_r, push_value_open. reflexivity.
    + rewrite push_value_open, map_app. reflexivity.
    + rewrite lists_open, push_values_open, seal_open. f_equal. rewrite !ungroup_app. unfold labels. rewrite !map_app, !ungroup_cons. cbn [ungroup flat_map]. rewrite !app_nil_r, !map_app, <- !app_assoc. reflexivity.
    + rewrite (push_diffs _ (key, v)). f_equal. f_equal. rewrite !ungroup_app, !ungroup_cons. cbn [ungroup flat_map]. rewrite !app_nil_r, map_app, !ungroup_app, <- app_assoc. f_equal. f_equal. cbn [map]. rewrite ungroup_cons. cbn [ungroup flat_map]. rewrite app_nil_r. reflexivity.
Qed.
Lemma wrote_close N0 key g k' : nonemptyb g = true -> 
  {| u_keys := u_keys (wrote N0 key g); u_vals := seal_list (u_vals (wrote N0 key g)); u_times := u_times (wrote N0 key g); u_diffs := u_diffs (wrote N0 key g) |} = wrote (N0 ++ [(key, g)]) k' [].
Proof.
  intros H. unfold wrote. rewrite H. cbn [u_keys u_vals u_times u_diffs nonemptyb map]. rewrite seal_open. f_equal.
  - rewrite map_app, app_nil_r. reflexivity.
  - unfold labels. rewrite map_app, lists_open. reflexivity.
  - rewrite !ungroup_app. cbn. rewrite !app_nil_r. reflexivity.
  - rewrite !ungroup_app. cbn. rewrite !app_nil_r. reflexivity.
Qed.
Lemma advance_keys_ok : forall (rest pre N0 : Nst) k', N = pre ++ rest ->
  advance_keys dzero u frontier (nonemptyb N0) (seq (length pre) (length rest)) (wrote N0 k' []) = Some (trie_of_nest (N0 ++ adv_nest rest)).
Proof.
  induction rest as [|[key vrs] rest IH]; intros pre N0 k' E; cbn [length seq advance_keys].
  - f_equal. unfold adv_nest. cbn [map filter]. rewrite app_nil_r. unfold wrote, trie_of_nest, cols. cbn [u_keys u_vals u_times u_diffs nonemptyb map]. rewrite ungroup_app, app_nil_r. cbn. rewrite !app_nil_r.
    rewrite <- lists_open. destruct N0 as [|p N0]; [reflexivity|]. cbn [nonemptyb]. f_equal. rewrite seal_open. reflexivity.
  - assert (LV : length pre < length (labels N)) by (unfold labels; rewrite map_length, E, app_length; cbn; lia).
    assert (EN : nth_error N (length pre) = Some (key, vrs)) by (rewrite E, nth_error_app2, Nat.sub_diag by lia; reflexivity).
    cbn [trie_of_nest cols u_vals u_keys]. rewrite child_range_ok by auto.
    assert (Hk : get (ls_values (lists_of (root (map fst N)))) (length pre) = Some key) by (unfold get; cbn [lists_of ls_values]; rewrite concat_root, nth_error_map, EN; reflexivity).
    rewrite Hk. assert (Lg : nth_error (labels N) (length pre) = Some (map fst vrs)) by (unfold labels; rewrite nth_error_map, EN; reflexivity).
    unfold range. rewrite (off_S _ _ _ Lg), map_length, Nat.add_comm, Nat.add_sub.
    pose proof (advance_vals_ok key vrs (off (labels N) (length pre)) [] N0) as AV. cbn [nonemptyb app] in AV.
    pose proof (sub_ungroup N _ _ _ EN) as SU. rewrite (off_S _ _ _ Lg), map_length in SU. pose proof (off_le (labels N) (S (length pre))) as OL. rewrite (off_S _ _ _ Lg), map_length, labels_concat, map_length in OL.
    specialize (AV SU OL). rewrite (wrote_nil N0 k' key). cbn [trie_of_nest cols] in AV. rewrite AV.
    specialize (IH (pre ++ [(key, vrs)])). rewrite app_length, Nat.add_1_r in IH. rewrite <- app_assoc in IH. unfold adv_nest. cbn [map filter fst snd]. fold (adv_nest rest).
    destruct (nonemptyb (adv_group vrs)) eqn:En.
    + rewrite (wrote_close N0 key _ key En). specialize (IH (N0 ++ [(key, adv_group vrs)]) key E). rewrite <- app_assoc in IH. cbn [app] in IH. rewrite <- IH. cbn [trie_of_nest cols].
      replace (nonemptyb (N0 ++ [(key, adv_group vrs)])) with true by (destruct N0; reflexivity). reflexivity.
    + assert (En2 : adv_group vrs = []) by (destruct (adv_group vrs); [auto|discriminate]). rewrite En2. specialize (IH N0 key E). cbn [trie_of_nest cols] in IH. exact IH.
Qed.
Lemma advance_trie_nest : advance_trie dzero u frontier = Some (trie_of_nest (adv_nest N)).
Proof.
  unfold advance_trie, range. cbn [trie_of_nest cols u_keys lists_of ls_values]. rewrite concat_root, map_length, Nat.sub_0_r.
  destruct N as [|p N'] eqn:EN; [reflexivity|]. rewrite <- EN. pose proof (advance_keys_ok N [] [] (fst p) eq_refl) as H. exact H.
Qed.
End Loops.

(** ** A trie advanced *)
Lemma sorted_kept {A X Y} {OA : Ord A} (f : A * Y -> bool) (g : X -> Y) (l : list (A * X)) : strictly_sorted (map fst l) -> strictly_sorted (map fst (filter f (map (fun p => (fst p, g (snd p))) l))).
Proof.
  induction l as [|[a x] l IH]; cbn [map filter fst snd]; intros H; [constructor|]. apply strictly_sorted_cons_inv in H as [H HF]. destruct (f (a, g x)); auto. cbn [map fst]. apply strictly_sorted_cons; auto.
  rewrite Forall_map in *. rewrite Forall_forall in *. intros w Hw. apply filter_In in Hw as [Hw _]. apply in_map_iff in Hw as (q & <- & Hq). cbn [fst]. apply (HF q Hq).
Qed.
Lemma adv_runs frontier (N : Nst) : ungroup (adv_nest frontier N) = filter (fun p => nonemptyb (snd p)) (map (fun p => (fst p, adv_run frontier (snd p))) (ungroup N)).
Proof.
  unfold adv_nest. rewrite ungroup_filter. induction N as [|[k g] N IH]; [reflexivity|]. cbn [map fst snd]. rewrite !ungroup_cons, map_app, filter_app, IH. f_equal. unfold adv_group. clear.
  induction g as [|[v r] g IH]; [reflexivity|]. cbn [map filter fst snd]. destruct (nonemptyb (adv_run frontier r)); cbn [map fst snd]; rewrite IH; reflexivity.
Qed.
Lemma adv_well frontier N : well_nested N -> well_nested (adv_nest frontier N).
Proof.
  intros [H1 H2 H3]. split.
  - apply sorted_kept; auto.
  - rewrite Forall_forall in *. intros p Hp. apply filter_In in Hp as [Hp HE]. split; [destruct (snd p); [discriminate|discriminate]|].
    apply in_map_iff in Hp as (q & <- & Hq). cbn [snd]. unfold adv_group. apply sorted_kept. apply (H2 q Hq).
  - rewrite adv_runs. rewrite Forall_forall in *. intros p Hp. apply filter_In in Hp as [Hp HE]. split; [destruct (snd p); [discriminate|discriminate]|].
    apply in_map_iff in Hp as (q & <- & Hq). cbn [snd]. apply (consolidate_consolidated (A:=T)).
Qed.
Lemma adv_run_weight frontier (kv : K * V) (g : Run) : same_weights (A:=K*V*T) (map (fun y => (kv, fst y, snd y)) (adv_run frontier g)) (map (fun u => (fst (fst u), advance_by (time_of u) frontier, snd u)) (map (fun y => (kv, fst y, snd y)) g)).
Proof.
  intros a. unfold adv_run. rewrite map_map. cbn [fst snd]. unfold time_of. cbn [fst snd].
  transitivity (weight (map (fun y => (kv, fst y, snd y)) (map (fun x => (advance_by (fst x) frontier, snd x)) g)) a); [|rewrite map_map; reflexivity].
  apply (map_same_weights (fun t : T => (kv, t))). apply consolidate_weight.
Qed.
Lemma advance_trie_ok frontier u us : holds u us -> exists u' us', advance_trie dzero u frontier = Some u' /\ holds u' us' /\ consolidated (A:=K*V*T) us' /\
  same_weights (A:=K*V*T) us' (map (fun u => (fst (fst u), advance_by (time_of u) frontier, snd u)) us) /\ length us' <= length us.
Proof.
  intros H. destruct (holds_nest _ _ H) as (N & -> & -> & W). exists (trie_of_nest (adv_nest frontier N)), (ungroup (ungroup (adv_nest frontier N))).
  split; [apply advance_trie_nest|]. pose proof (nest_holds _ (adv_well frontier _ W)) as H'. split; auto. rewrite adv_runs, ungroup_filter in *. split; [|split].
  - apply (holds_consolidated _ _ H'). apply Forall_forall. intros x Hx. unfold ungroup at 1 in Hx. apply in_flat_map in Hx as (p & Hp & Hx). apply in_map_iff in Hp as (q & <- & Hq). cbn [fst snd] in Hx. apply in_map_iff in Hx as (y & <- & Hy). cbn [snd].
    pose proof (proj2 (consolidate_consolidated (A:=T) (map (fun x => (advance_by (fst x) frontier, snd x)) (snd q)))) as F. rewrite Forall_forall in F. apply (F y Hy).
  - clear. induction (ungroup N) as [|[kv g] M IH]; [intros a; reflexivity|]. cbn [map fst snd]. rewrite !ungroup_cons, map_app. intros a. rewrite !weight_app. f_equal; [apply adv_run_weight|apply IH].
  - clear. induction (ungroup N) as [|[kv g] M IH]; [auto|]. cbn [map fst snd]. rewrite !ungroup_cons, !app_length, !map_length. pose proof (consolidate_length (A:=T) (map (fun x => (advance_by (fst x) frontier, snd x)) g)) as L. rewrite map_length in L. unfold adv_run at 1. lia.
Qed.

(** ** The last value *)
Lemma nest_last N : well_nested N -> N <> [] -> exists M kv g, ungroup N = M ++ [(kv, g)] /\ g <> [] /\ Forall (fun p => lt (fst p) kv) (M : list (K * V * Run)).
Proof.
  intros W HN. pose proof (vpaths_sorted _ _ _ (nest_shaped _ W)) as S. rewrite ungroup_paths in S. destruct (ungroup N) as [|[kv g] M _] eqn:E using rev_ind.
  - destruct N as [|[k vr] N]; [congruence|]. pose proof (wn_vals _ W) as F. inversion F as [|? ? [F1 _] _]; subst. rewrite ungroup_cons in E. cbn [snd] in F1. destruct vr; [congruence|discriminate].
  - exists M, kv, g. split; auto. split.
    + pose proof (wn_times _ W) as F. rewrite E in F. apply Forall_app in F as [_ F]. inversion F as [|? ? [F1 _] _]; auto.
    + rewrite map_app in S. cbn [map fst] in S. apply strictly_sorted_app in S as (_ & _ & S). apply Forall_forall. intros p Hp. apply S; [apply in_map; auto|left; auto].
Qed.
Lemma tail_len_ok u us : holds u us -> us <> [] -> exists (a b : list U) kv, tail_len u = Some (length b) /\ us = a ++ b /\ b <> [] /\ data_before a b /\ Forall (fun x : U => fst (fst x) = kv) b.
Proof.
  intros H Hn. destruct (holds_nest _ _ H) as (N & -> & -> & W). assert (HN : N <> []) by (intros ->; apply Hn; reflexivity).
  destruct (nest_last _ W HN) as (M & kv & g & E & Hg & HF).
  exists (ungroup M), (map (fun y => (kv, fst y, snd y)) g), kv. split; [|split; [|split; [|split]]].
  - unfold tail_len. cbn [trie_of_nest cols u_keys u_vals u_times u_diffs lists_of ls_values]. rewrite concat_root, map_length.
    destruct (length N) as [|n] eqn:En; [destruct N; [congruence|discriminate]|]. change (ends 0 (labels N)) with (ls_bounds (lists_of (labels N))). rewrite child_range_ok by (unfold labels; rewrite map_length; lia).
    rewrite (off_all (labels N) (S n)) by (unfold labels; rewrite map_length; lia). rewrite labels_concat, map_length. rewrite E, app_length, Nat.add_comm. cbn [length Nat.add].
    change (ends 0 (labels (M ++ [(kv, g)]))) with (ls_bounds (lists_of (labels (M ++ [(kv, g)])))). rewrite child_range_ok by (unfold labels; rewrite map_length, app_length; cbn; lia).
    assert (O1 : off (labels (M ++ [(kv, g)])) (length M) = length (ungroup M)).
    { unfold off, labels. rewrite map_app, firstn_app, map_length, Nat.sub_diag, firstn_O, app_nil_r. fold (labels M). rewrite <- (map_length (fun p => map fst (snd p)) M), firstn_all. fold (labels M). rewrite labels_concat, map_length. reflexivity. }
    assert (O2 : off (labels (M ++ [(kv, g)])) (S (length M)) = length (ungroup M) + length g).
    { rewrite off_all by (unfold labels; rewrite map_length, app_length; cbn; lia). rewrite labels_concat, map_length, ungroup_app, app_length. cbn. rewrite app_nil_r, map_length. reflexivity. }
    rewrite O1, O2, ungroup_app, ungroup_cons. cbn [ungroup flat_map]. rewrite app_nil_r. set (b := map (fun y => (kv, fst y, snd y)) g). assert (Lb : length b = length g) by apply map_length.
    assert (0 < length g) by (destruct g; [congruence|cbn; lia]). replace (length (ungroup M) + length g) with (S (length (ungroup M) + (length g - 1))) by lia.
    change (ends 0 (singles (ungroup M ++ b))) with (ls_bounds (lists_of (singles (ungroup M ++ b)))). rewrite !child_range_ok by (rewrite singles_length, app_length; lia). rewrite !off_singles by (rewrite app_length; lia).
    rewrite (proj2 (Nat.leb_le _ _)) by lia. f_equal. lia.
  - rewrite E, ungroup_app, ungroup_cons. cbn [ungroup flat_map]. rewrite app_nil_r. reflexivity.
  - destruct g; [congruence|discriminate].
  - intros x y Hx Hy. apply in_map_iff in Hy as (z & <- & _). cbn [fst]. unfold ungroup in Hx. apply in_flat_map in Hx as (p & Hp & Hx). apply in_map_iff in Hx as (w & <- & _). cbn [fst]. rewrite Forall_forall in HF. apply (HF p Hp).
  - apply Forall_map. apply Forall_forall. auto.
Qed.

(** ** Advancing *)
Local Notation adv F := (fun x : U => (fst (fst x), advance_by (time_of x) F, snd x)).
Definition carried (carry : option Upd) (cs : list U) : Prop := match carry with None => cs = [] | Some u => holds u cs /\ cs <> [] end.
Lemma before_later (a b c : list U) : b <> [] -> data_before a b -> consolidated (A:=K*V*T) (b ++ c) -> data_before a (b ++ c).
Proof.
  intros Hb HD HC x y Hx Hy. apply in_app_iff in Hy as [Hy|Hy]; [apply HD; auto|]. destruct b as [|z b]; [congruence|]. apply consolidated_app in HC as (_ & _ & HC).
  eapply lt_le_trans; [apply (HD x z); [auto|left; auto]|]. apply data_le. apply HC; [left|]; auto.
Qed.
Lemma pieces_ok frontier (o1 o2 f1 f2 : list U) : consolidated (A:=K*V*T) o1 -> consolidated (A:=K*V*T) o2 ->
  same_weights (A:=K*V*T) o1 (map (adv frontier) f1) -> same_weights (A:=K*V*T) o2 (map (adv frontier) f2) -> data_before f1 f2 ->
  consolidated (A:=K*V*T) (o1 ++ o2) /\ same_weights (A:=K*V*T) (o1 ++ o2) (map (adv frontier) (f1 ++ f2)).
Proof.
  intros C1 C2 W1 W2 HD. split.
  - apply consolidated_app. split; auto. split; auto. intros x y Hx Hy. destruct (keys_in _ _ C1 W1 x Hx) as (x' & Hx' & Ex). destruct (keys_in _ _ C2 W2 y Hy) as (y' & Hy' & Ey).
    apply in_map_iff in Hx' as (w & <- & Hw). apply in_map_iff in Hy' as (z & <- & Hz). cbn [fst] in Ex, Ey. rewrite <- Ex, <- Ey. apply lt_pair. left. apply HD; auto.
  - intros a. rewrite map_app, !weight_app. f_equal; auto.
Qed.
Lemma advance_loop frontier (input : list Chk) : forall carry cs, carried carry cs -> all_nonempty col_made col_rows input -> consolidated (A:=K*V*T) (cs ++ updates_of col_rows input) ->
  exists carry' out front rest, col_advance_loop dzero frontier input carry = Some (carry', out) /\ cs ++ updates_of col_rows input = front ++ rest /\ carried carry' rest /\ data_before front rest /\
    consolidated (A:=K*V*T) (updates_of col_rows out) /\ same_weights (A:=K*V*T) (updates_of col_rows out) (map (adv frontier) front) /\ length (updates_of col_rows out) <= length front /\
    all_nonempty col_made col_rows out /\ (carry <> None \/ input <> [] -> carry' <> None).
Proof.
  induction input as [|c input IH]; intros carry cs HK HN HC; cbn [col_advance_loop].
  { exists carry, [], [], cs. split; auto. split; [apply app_nil_r|]. split; auto. split; [intros x y []|]. split; [apply consolidated_nil|]. split; [apply same_weights_refl|]. split; [cbn; auto|]. split; [constructor|]. tauto. }
  apply Forall_cons_iff in HN as [[M Nc] HN]. pose proof (proj1 (made_of _) M) as (Hc & _). cbn [updates_of flat_map] in HC |- *. rewrite app_assoc in HC |- *. change (flat_map col_rows input) with (updates_of col_rows input) in *.
  assert (HM : exists u, (match carry with None => Some (into_trie c) | Some c0 => meld_pair c0 (into_trie c) end) = Some u /\ holds u (cs ++ col_rows c)).
  { destruct carry as [u0|]; [|cbn in HK; subst cs; eauto]. destruct HK as [HK _]. apply consolidated_app in HC as (HC1 & _). apply (meld_pair_ok _ _ _ _ HK Hc). apply HC1. }
  destruct HM as (u & E & HU). rewrite E. clear E. assert (Hn : cs ++ col_rows c <> []) by (destruct cs; [auto|discriminate]). set (us := cs ++ col_rows c) in *. rewrite (holds_len _ _ HU).
  replace (length us =? 0) with false by (destruct us; [congruence|reflexivity]).
  destruct (tail_len_ok _ _ HU Hn) as (a & b & kv & -> & Eab & Hb & HD & HF).
  destruct (Nat.eqb_spec (length b) (length us)) as [El|El].
  - assert (Ea : a = []) by (rewrite Eab, app_length in El; destruct a; [auto|cbn in El; lia]).
    destruct (IH (Some u) us) as (carry' & out & front & rest & E & H1 & H2 & H3 & H4 & H5 & H6 & H7 & H8); [split; auto|auto|auto|]. rewrite E. exists carry', out, front, rest. repeat (split; auto). intros _. apply H8. left; discriminate.
  - rewrite Eab, app_length. rewrite (proj2 (Nat.ltb_ge _ _)) by lia. rewrite Nat.add_sub. destruct (split_at_ok _ _ (length a) HU) as (u1 & u2 & -> & HU1 & HU2).
    rewrite Eab in HU1, HU2. rewrite firstn_app, Nat.sub_diag, firstn_all, firstn_O, app_nil_r in HU1. rewrite skipn_app, Nat.sub_diag, skipn_all in HU2. cbn [skipn app] in HU2.
    rewrite Eab, <- app_assoc in HC. pose proof HC as HC0. apply consolidated_app in HC as (C1 & C2 & _).
    destruct (advance_trie_ok frontier _ _ HU1) as (u' & us' & -> & A1 & A2 & A3 & A4). destruct (emit_ok _ _ A1 A2) as (E1 & E2 & _).
    destruct (IH (Some u2) b) as (carry' & out & front & rest & -> & H1 & H2 & H3 & H4 & H5 & H6 & H7 & H8); [split; auto|auto|auto|].
    pose proof (before_later a b (updates_of col_rows input) Hb HD C2) as HD2. rewrite H1 in HD2.
    assert (D1 : data_before a front) by (intros x y Hx Hy; apply HD2; auto; apply in_app_iff; auto). assert (D2 : data_before a rest) by (intros x y Hx Hy; apply HD2; auto; apply in_app_iff; auto).
    destruct (pieces_ok frontier us' (updates_of col_rows out) a front) as [P1 P2]; auto.
    exists carry', (emit u' ++ out), (a ++ front), rest. split; auto. split; [rewrite <- !app_assoc, H1; reflexivity|]. split; auto. split; [intros x y Hx Hy; apply in_app_iff in Hx as [Hx|Hx]; auto|].
    unfold updates_of in *. rewrite flat_map_app, E1. split; auto. split; auto. split; [rewrite !app_length; lia|]. split; [apply Forall_app; auto|]. intros _. apply H8. left; discriminate.
Qed.
Lemma col_advance_law (input : list Chk) frontier done : chain col_made col_rows input ->
    exists input' out front, col_advance dzero input frontier done = Some (input', out) /\
      updates_of col_rows input = front ++ updates_of col_rows input' /\ data_before front (updates_of col_rows input') /\
      consolidated (A:=K*V*T) (updates_of col_rows out) /\
      same_weights (A:=K*V*T) (updates_of col_rows out) (map (adv frontier) front) /\
      length (updates_of col_rows out) <= length front /\
      all_nonempty col_made col_rows input' /\ all_nonempty col_made col_rows out /\ (done = true -> input' = []) /\ (done = false -> input <> [] -> input' <> []).
Proof.
  intros [HN HC]. unfold col_advance. destruct (advance_loop frontier input None [] eq_refl HN HC) as (carry & out & front & rest & -> & H1 & H2 & H3 & H4 & H5 & H6 & H7 & H8). cbn [app] in H1.
  destruct carry as [u|]; cbn [carried] in H2.
  2: { subst rest. exists [], out, front. split; auto. cbn [updates_of flat_map]. split; auto. split; auto. split; auto. split; auto. split; auto. split; [constructor|]. split; auto. split; auto. intros _ Hi. exfalso. apply H8; auto. }
  destruct H2 as [HU Hr]. destruct done.
  - destruct (advance_trie_ok frontier _ _ HU) as (u' & us' & -> & A1 & A2 & A3 & A4). destruct (emit_ok _ _ A1 A2) as (E1 & E2 & _).
    destruct (pieces_ok frontier (updates_of col_rows out) us' front rest) as [P1 P2]; auto. exists [], (out ++ emit u'), (front ++ rest). split; auto. unfold updates_of in *. rewrite flat_map_app, E1. cbn [flat_map]. rewrite app_nil_r.
    split; auto. split; [intros x y _ []|]. split; auto. split; auto. split; [rewrite !app_length; lia|]. split; [constructor|]. split; [apply Forall_app; auto|]. split; [auto|discriminate].
  - assert (HCr : consolidated (A:=K*V*T) rest) by (cbn [app] in HC; rewrite H1 in HC; apply consolidated_app in HC; tauto).
    destruct (of_made _ _ (resident_of _ _ HU HCr)) as [M E]. exists [Resident u], out, front. split; auto. unfold updates_of at 2 3. cbn [flat_map]. rewrite E, app_nil_r. split; auto. split; auto. split; auto. split; auto. split; auto.
    split; [constructor; [split; [auto|rewrite E; auto]|constructor]|]. split; auto. split; [discriminate|intros _ _; discriminate].
Qed.

(** ** The laws of chunks *)
Section Laws.
Variable target : nat.
Hypothesis Htarget : 0 < target.
Variable spiller : option (Upd -> bool).
Definition col_laws : ChunkLaws (col_chunk target dzero spiller) (col_made (K:=K) (V:=V)) col_rows.
Proof.
  refine (Build_ChunkLaws (col_chunk target dzero spiller) col_made col_rows Htarget len_made col_merge_law col_extract_law col_advance_law (col_settling target) _ _ _).
  - exists None. split; auto. apply open_nil.
  - intros out queue new HS HN HC. destruct (col_settle_ok target Htarget spiller false out queue new HS HN HC) as (c & o & E & Rw & H1 & _). exists (held c), o. auto.
  - intros out queue new HS HN HC. destruct (col_settle_ok target Htarget spiller true out queue new HS HN HC) as (c & o & E & Rw & _ & H2). destruct (H2 eq_refl) as (-> & G & N). exists o. split; auto. split; [|split; auto].
    rewrite Rw. cbn. rewrite app_nil_r. auto.
Defined.
End Laws.
End Advance.
