(** * Merging two columnar tries *)
From Coq Require Import Arith Lia.
From Verif Require Import Base.Arrays Base.Collections Spec.Collection Model.ColumnarM Proofs.ColListsP Proofs.ColSurveyP Proofs.ColTrimP Proofs.ColTrieP.
From Verif Require Import Base.Order.

(** ** The part of a layer from some item on *)
Section Cut.
Context {X : Type} {OX : Ord X}.
Variable G : list (list X).
Variables lo x : nat.
Hypothesis HP : parent G lo x.
Lemma cut_eq : exists g, nth_error G lo = Some g /\ x - off G lo < length g /\ cut G lo (length G) x = skipn (x - off G lo) g :: skipn (S lo) G.
Proof.
  destruct HP as (H1 & H2 & H3). destruct (get_some G lo H1) as (g & Eg). exists g. split; auto. rewrite (off_S G lo g Eg) in H3. split; [lia|].
  unfold cut. rewrite (sub_cons G lo _ g Eg) by lia. rewrite sub_skipn. reflexivity.
Qed.
Lemma cut_length : length (cut G lo (length G) x) = length G - lo.
Proof. destruct cut_eq as (g & _ & _ & E). rewrite E. cbn [length]. rewrite skipn_length. destruct HP. lia. Qed.
Lemma cut_concat : concat (cut G lo (length G) x) = skipn x (concat G).
Proof.
  destruct cut_eq as (g & Eg & Hx & E). rewrite E. cbn [concat]. rewrite concat_skip_off. destruct HP as (H1 & H2 & H3).
  rewrite <- (sub_group G lo g Eg). unfold sub. rewrite skipn_firstn_comm, skipn_skipn. replace (x - off G lo + off G lo) with x by lia.
  rewrite <- (firstn_skipn (off G (S lo) - x) (skipn x (concat G))) at 2. rewrite skipn_skipn. f_equal; f_equal; lia.
Qed.
Lemma cut_expand {A} (P : list A) : length P = length G -> expand (skipn lo P) (cut G lo (length G) x) = skipn x (expand P G).
Proof.
  intros HL.
  destruct cut_eq as (g & Eg & Hx & E). rewrite E. destruct HP as (H1 & H2 & H3). destruct (get_some P lo) as (p & Ep); [lia|]. unfold get in Ep.
  rewrite (skipn_get P lo p Ep). cbn [expand]. rewrite expand_skipn by auto.
  rewrite <- (firstn_skipn (off G (S lo) - x) (skipn x (expand P G))). rewrite skipn_skipn. replace (off G (S lo) - x + x) with (off G (S lo)) by lia. f_equal.
  transitivity (sub (expand P G) x (off G (S lo))); [|reflexivity]. rewrite (path_at P G lo p g) by (auto; lia). f_equal.
  rewrite <- (sub_group G lo g Eg). unfold sub. rewrite skipn_firstn_comm, skipn_skipn. f_equal; [lia|]. f_equal. lia.
Qed.
Lemma cut_full : Forall (fun g => g <> []) G -> Forall (fun g => g <> []) (cut G lo (length G) x).
Proof.
  intros H. destruct cut_eq as (g & Eg & Hx & E). rewrite E. constructor.
  - intros E2. assert (Hl : length (skipn (x - off G lo) g) = 0) by (rewrite E2; reflexivity). rewrite skipn_length in Hl. lia.
  - rewrite Forall_forall in *. intros y Hy. apply H. rewrite <- (firstn_skipn (S lo) G). apply in_or_app. auto.
Qed.
Lemma skipn_sorted n (l : list X) : strictly_sorted l -> strictly_sorted (skipn n l).
Proof. intros H. rewrite <- (firstn_skipn n l) in H. apply strictly_sorted_app in H. tauto. Qed.
Lemma cut_sorted : Forall strictly_sorted G -> Forall strictly_sorted (cut G lo (length G) x).
Proof.
  intros H. destruct cut_eq as (g & Eg & Hx & E). rewrite E. rewrite Forall_forall in H. constructor.
  - apply skipn_sorted. apply H. eapply nth_error_In; eauto.
  - apply Forall_forall. intros y Hy. apply H. rewrite <- (firstn_skipn (S lo) G). apply in_or_app. auto.
Qed.
End Cut.

(** ** Order, and where a trimmed survey stops *)
Section Facts.
Context {Y : Type} {OY : Ord Y}.
Lemma facts_this (P0 P1 : list Y) TS n0 n1 : zips (same P0 P1) 0 n0 0 n1 TS -> strictly_sorted (read P0 P1 TS) -> 0 < n1 -> n0 <= length P0 -> n1 <= length P1 ->
  let a := stop0 0 (trimmed is_this TS) in
  zips (same P0 P1) 0 a 0 n1 (trimmed is_this TS) /\ a <= n0 /\ trimmed is_this TS <> [] /\ (forall x y, In x (sub P1 0 n1) -> In y (sub P0 a n0) -> lt x y) /\
  (forall x, In x (sub P0 0 a) -> exists y, In y (sub P1 0 n1) /\ le x y).
Proof.
  intros HZ HS Hn B0 B1 a. destruct (trimmed_split is_this TS) as (th & E & Hth). rewrite E in HZ, HS. apply zips_app in HZ as (a' & b & Z1 & Z2).
  assert (Ea : a' = a) by (symmetry; apply (zips_stop _ _ _ _ _ _ Z1)). subst a'. assert (b = n1) by (eapply zips_this; eauto). subst b.
  rewrite read_app in HS. apply strictly_sorted_app in HS as (S1 & S2 & S12). pose proof (zips_le _ _ _ _ _ _ Z2) as [L1 _].
  split; auto. split; auto.
  assert (HN : trimmed is_this TS <> []) by (intros E0; rewrite E0 in Z1; inversion Z1; lia). split; auto. split.
  - intros x y Hx Hy. apply S12; [eapply read_has1; eauto|eapply read_has0; eauto].
  - intros x Hx. destruct (trimmed_last is_this TS) as [E0|(s0 & r & E0 & Hr)]; [congruence|]. apply (read_has0 _ _ _ _ _ _ _ _ Z1) in Hx. rewrite E0 in *.
    apply zips_app in Z1 as (a1 & b1 & Z3 & Z4). rewrite read_app in *. apply strictly_sorted_app in S1 as (_ & _ & S1).
    assert (HR : exists y, In y (read P0 P1 [r])).
    { inversion Z4; subst; cbn in Hr; try discriminate; cbn [read flat_map read_one]; rewrite app_nil_r.
      - match goal with H : zips _ _ _ _ _ [] |- _ => inversion H; subst end. destruct (get_some P1 b1) as (y & Ey); [lia|]. exists y. eapply sub_in; eauto.
      - match goal with H : same _ _ _ _ |- _ => destruct H as (y & H0 & H1) end. exists y. rewrite (sub_one _ _ _ H0). left. reflexivity. }
    assert (HI : forall y, In y (read P0 P1 [r]) -> In y (sub P1 0 n1)).
    { intros y Hy. apply zips_le in Z3 as [_ L3]. inversion Z4; subst; cbn in Hr; try discriminate; cbn [read flat_map read_one] in Hy; rewrite app_nil_r in Hy;
        match goal with H : zips _ _ _ _ _ [] |- _ => inversion H; subst end.
      - rewrite (sub_split P1 0 b1 n1) by lia. apply in_or_app. auto.
      - match goal with H : same _ _ _ _ |- _ => destruct H as (z & E8 & E9) end. rewrite (sub_one _ _ _ E8) in Hy. destruct Hy as [<-|[]]. eapply sub_in; eauto; lia. }
    apply in_app_or in Hx as [Hx|Hx].
    + destruct HR as (y & Hy). exists y. split; auto. apply lt_le. apply S1; auto.
    + exists x. split; auto. apply le_refl.
Qed.
End Facts.

Section Merge.
Context {K V T R : Type} {OK : Ord K} {OV : Ord V} {TT : Time T} {DR : Diff R}.
Local Notation U := (K * V * T * R)%type.
Local Notation Upd := (Updates K V T R).

Lemma expand_rows (l : list U) : expand (map fst l) (singles l) = l.
Proof. unfold singles. induction l as [|[x r] l IH]; cbn; congruence. Qed.

(** ** The rest of a trie *)
Lemma suffix_ok ks vs ts (us : list U) k v t : shaped ks vs ts -> paths ks vs ts = map fst us -> parent ts v t -> parent vs k v ->
  exists u', suffix_chunk (k, v, t) (cols ks vs ts (singles us)) = Some u' /\ holds u' (skipn t us).
Proof.
  intros HS E Ht Hv. assert (Hlen : length us = length (concat ts)) by (rewrite <- (paths_length _ _ _ HS), E, map_length; reflexivity).
  assert (Htl : t < length us). { destruct Ht as (_ & _ & L). pose proof (off_le ts (S v)). lia. }
  pose proof (sh_vals _ _ _ HS) as Lv. pose proof (sh_times _ _ _ HS) as Lt.
  assert (Hk : k < length ks) by (destruct Hv; lia). destruct ks as [|k0 ks0] eqn:Ek; [cbn in Hk; lia|]. rewrite <- Ek in *.
  unfold suffix_chunk, write_from_surveys, write_layer. cbn [cols u_keys u_vals u_times u_diffs updates_new].
  change (ls_values (lists_of (root ks))) with (concat (root ks)). rewrite concat_root. change (ls_values (lists_of vs)) with (concat vs). change (ls_values (lists_of ts)) with (concat ts).
  cbn [write_layer_from orb]. change (@ls_new K) with (lists_of (@nil (list K))). change (@ls_new V) with (lists_of (@nil (list V))). change (@ls_new T) with (lists_of (@nil (list T))). change (@ls_new R) with (lists_of (@nil (list R))).
  replace (root ks) with [ks] by (rewrite Ek; reflexivity).
  pose proof (write_range_pruned [ks] [] 0 1 k) as W1. replace (off [ks] 1) with (length ks) in W1 by (unfold off; cbn; rewrite app_nil_r; reflexivity). rewrite W1 by (cbn; lia). clear W1.
  pose proof (write_range_pruned vs [] k (length ks) v) as W2. rewrite (off_all vs (length ks)) in W2 by lia. destruct Hv as (Hv1 & Hv2 & Hv3). rewrite W2 by lia. clear W2.
  pose proof (write_range_pruned ts [] v (length (concat vs)) t) as W3. rewrite (off_all ts (length (concat vs))) in W3 by lia. destruct Ht as (Ht1 & Ht2 & Ht3). rewrite W3 by lia. clear W3.
  cbn [write_diffs]. rewrite extend_ok by (rewrite ?singles_length; lia). cbn [app]. eexists. split; [reflexivity|].
  assert (Ht : parent ts v t) by (split; auto). assert (Hv : parent vs k v) by (split; auto).
  exists (skipn k ks), (cut vs k (length vs) v), (cut ts v (length ts) t). split; [|split].
  - split.
    + rewrite cut_length by auto. rewrite skipn_length. lia.
    + rewrite cut_length by auto. rewrite cut_concat by auto. rewrite skipn_length. lia.
    + apply skipn_sorted. apply HS.
    + apply cut_sorted; auto. apply HS.
    + apply cut_sorted; auto. apply HS.
    + apply cut_full; auto. apply HS.
    + apply cut_full; auto. apply HS.
  - unfold cols. f_equal.
    + f_equal. unfold cut. cbn. rewrite Nat.sub_0_r. destruct (skipn k ks) as [|y l] eqn:Es; [|reflexivity]. assert (length (skipn k ks) = 0) by (rewrite Es; reflexivity). rewrite skipn_length in H. lia.
    + rewrite Lv. reflexivity.
    + rewrite Lt. reflexivity.
    + rewrite <- Hlen, <- singles_length, sub_skipn. unfold singles. rewrite skipn_map. reflexivity.
  - unfold paths. rewrite cut_expand by (auto; symmetry; apply HS). rewrite cut_expand by (auto; apply vpaths_ts; auto). unfold paths in E. rewrite E, skipn_map. reflexivity.
Qed.

(** ** The differences *)
Section Diffs.
Variables us0 us1 : list U.
Local Notation P0 := (map fst us0).
Local Notation P1 := (map fst us1).
Definition dread_one (r : Report) : list (list R) :=
  match r with
  | This l u => sub (singles us0) l u
  | That l u => sub (singles us1) l u
  | Both i j => match nth_error us0 i, nth_error us1 j with
                | Some x, Some y => [if is_zero (dplus (snd x) (snd y)) then [] else [dplus (snd x) (snd y)]]
                | _, _ => []
                end
  end.
Definition dread (s : list Report) : list (list R) := flat_map dread_one s.
Lemma same_rows i j : same P0 P1 i j -> exists x y, nth_error us0 i = Some x /\ nth_error us1 j = Some y /\ fst x = fst y.
Proof.
  intros (z & E0 & E1). rewrite nth_error_map in E0, E1. destruct (nth_error us0 i) as [x|]; [|discriminate]. destruct (nth_error us1 j) as [y|]; [|discriminate].
  exists x, y. cbn in *. repeat split; congruence.
Qed.
Lemma write_diffs_ok s : forall p p' q q' out, zips (same P0 P1) p p' q q' s -> p' <= length us0 -> q' <= length us1 ->
  write_diffs (lists_of (singles us0)) (lists_of (singles us1)) s (lists_of out) = Some (lists_of (out ++ dread s)).
Proof.
  intros p p' q q' out H. revert out. induction H as [p q|p m p' q q' s L H IH|p p' q m q' s L H IH|p p' q q' s E H IH]; intros out B0 B1; cbn [write_diffs dread flat_map].
  - rewrite app_nil_r. reflexivity.
  - pose proof (zips_le _ _ _ _ _ _ H) as [La Lb]. rewrite extend_ok by (rewrite ?singles_length; lia). rewrite IH, <- app_assoc by auto. reflexivity.
  - pose proof (zips_le _ _ _ _ _ _ H) as [La Lb]. rewrite extend_ok by (rewrite ?singles_length; lia). rewrite IH, <- app_assoc by auto. reflexivity.
  - pose proof (zips_le _ _ _ _ _ _ H) as [La Lb]. destruct (same_rows _ _ E) as (x & y & E0 & E1 & Ef). rewrite !child_range_ok by (rewrite singles_length; lia). rewrite !off_singles by lia.
    replace (S p - p =? 1) with true by (symmetry; apply Nat.eqb_eq; lia). replace (S q - q =? 1) with true by (symmetry; apply Nat.eqb_eq; lia). cbn [andb].
    change (ls_values (lists_of (singles us0))) with (concat (singles us0)). change (ls_values (lists_of (singles us1))) with (concat (singles us1)). rewrite !concat_singles.
    unfold get. rewrite !nth_error_map, E0, E1. cbn [option_map dread_one]. rewrite E0, E1.
    replace (seal_list (if negb (is_zero (dplus (snd x) (snd y))) then push_value (lists_of out) (dplus (snd x) (snd y)) else lists_of out))
      with (lists_of (out ++ [if is_zero (dplus (snd x) (snd y)) then [] else [dplus (snd x) (snd y)]])).
    + rewrite IH by auto. rewrite <- app_assoc. reflexivity.
    + destruct (is_zero _); cbn [negb]; rewrite (lists_open out), ?push_value_open, seal_open; reflexivity.
Qed.
Lemma dread_length s : forall p p' q q', zips (same P0 P1) p p' q q' s -> p' <= length us0 -> q' <= length us1 -> length (dread s) = length (read P0 P1 s).
Proof.
  intros p p' q q' H. induction H as [p q|p m p' q q' s L H IH|p p' q m q' s L H IH|p p' q q' s E H IH]; intros B0 B1; cbn [dread read flat_map dread_one read_one]; auto;
    pose proof (zips_le _ _ _ _ _ _ H) as [La Lb]; unfold dread, read in IH; rewrite !app_length, IH by auto; f_equal.
  - rewrite !sub_length by (rewrite ?singles_length, ?map_length; lia). reflexivity.
  - rewrite !sub_length by (rewrite ?singles_length, ?map_length; lia). reflexivity.
  - destruct (same_rows _ _ E) as (x & y & E0 & E1 & _). rewrite E0, E1. rewrite sub_length by (rewrite map_length; lia). cbn [length]. lia.
Qed.
Lemma dread_small s : Forall (fun g => length g <= 1) (dread s).
Proof.
  induction s as [|r s IH]; [constructor|]. cbn [dread flat_map]. apply Forall_app. split; auto.
  assert (Hs : forall (l : list U) a b, Forall (fun g => length g <= 1) (sub (singles l) a b)).
  { intros l a b. apply Forall_forall. intros g Hg. apply in_sub_in in Hg. unfold singles in Hg. apply in_map_iff in Hg as (z & <- & _). cbn. lia. }
  destruct r as [l u|l u|i j]; cbn [dread_one]; auto. destruct (nth_error us0 i), (nth_error us1 j); auto. constructor; auto. destruct (is_zero _); cbn; lia.
Qed.
Definition mread (s : list Report) : list U := expand (read P0 P1 s) (dread s).
Lemma sub_rows (l : list U) a b : expand (sub (map fst l) a b) (sub (singles l) a b) = sub l a b.
Proof. unfold singles. rewrite <- !map_sub. apply expand_rows. Qed.
Lemma mread_cons r s : forall p p' q q', zips (same P0 P1) p p' q q' [r] -> p' <= length us0 -> q' <= length us1 -> mread (r :: s) = mread [r] ++ mread s.
Proof.
  intros p p' q q' H B0 B1. unfold mread. change (r :: s) with ([r] ++ s) at 1. rewrite read_app. unfold dread. rewrite (flat_map_app _ [r] s). rewrite expand_app; auto. symmetry. eapply dread_length; eauto.
Qed.
Lemma mread_weights s : forall p p' q q', zips (same P0 P1) p p' q q' s -> p' <= length us0 -> q' <= length us1 ->
  same_weights (A:=K*V*T) (mread s) (sub us0 p p' ++ sub us1 q q').
Proof.
  intros p p' q q' H. induction H as [p q|p m p' q q' s L H IH|p p' q m q' s L H IH|p p' q q' s E H IH]; intros B0 B1.
  - rewrite !sub_nil. apply same_weights_refl.
  - pose proof (zips_le _ _ _ _ _ _ H) as [La Lb]. rewrite (mread_cons _ _ p m q q) by (try lia; constructor; auto; constructor). rewrite (sub_split us0 p m p') by lia. rewrite <- app_assoc.
    apply same_weights_app; auto. unfold mread. cbn [read dread flat_map read_one dread_one]. rewrite !app_nil_r, sub_rows. apply same_weights_refl.
  - pose proof (zips_le _ _ _ _ _ _ H) as [La Lb]. rewrite (mread_cons _ _ p p q m) by (try lia; constructor; auto; constructor). rewrite (sub_split us1 q m q') by lia.
    eapply same_weights_trans; [apply same_weights_app; [|apply IH; auto]|].
    + unfold mread. cbn [read dread flat_map read_one dread_one]. rewrite !app_nil_r, sub_rows. apply same_weights_refl.
    + apply weight_perm. rewrite !app_assoc. apply Permutation_app_tail. apply Permutation_app_comm.
  - pose proof (zips_le _ _ _ _ _ _ H) as [La Lb]. rewrite (mread_cons _ _ p (S p) q (S q)) by (try lia; constructor; auto; constructor).
    rewrite (sub_split us0 p (S p) p'), (sub_split us1 q (S q) q') by lia. destruct (same_rows _ _ E) as (x & y & E0 & E1 & Ef). rewrite (sub_one us0 p x E0), (sub_one us1 q y E1).
    eapply same_weights_trans with (l2 := ([x] ++ [y]) ++ (sub us0 (S p) p' ++ sub us1 (S q) q')).
    + apply same_weights_app; auto. unfold mread. cbn [read dread flat_map read_one dread_one]. rewrite E0, E1, !app_nil_r. erewrite sub_one by (rewrite nth_error_map, E0; reflexivity).
      destruct x as [a r], y as [b r']. cbn [fst snd] in *. subst b. cbn [expand app]. intros c.
      destruct (is_zero (dplus r r')) eqn:Ez; cbn [map app]; rewrite ?weight_cons', ?weight_nil, ?weight_one; cbn [fst snd]; destruct (eqb a c); rewrite ?dplus_0_r, ?dplus_0_l; auto.
      apply is_zero_spec in Ez. auto.
    + apply weight_perm. cbn [app]. apply perm_skip. apply Permutation_middle.
Qed.
Lemma mread_facts s p p' q q' : zips (same P0 P1) p p' q q' s -> p' <= length us0 -> q' <= length us1 -> strictly_sorted (read P0 P1 s) ->
  Forall (fun x => is_zero (snd x) = false) us0 -> Forall (fun x => is_zero (snd x) = false) us1 ->
  consolidated (A:=K*V*T) (mread s) /\ length (mread s) <= (p' - p) + (q' - q).
Proof.
  intros H B0 B1 HS N0 N1. pose proof (dread_length s _ _ _ _ H B0 B1) as HL. split; [split|].
  - apply expand_fst_sorted; auto. apply dread_small.
  - assert (HD : Forall (fun d => is_zero d = false) (concat (dread s))).
    { clear -N0 N1. induction s as [|r s IH]; [constructor|]. cbn [dread flat_map]. rewrite concat_app. apply Forall_app. split; auto.
      assert (Hs : forall (l : list U) a b, Forall (fun x => is_zero (snd x) = false) l -> Forall (fun d => is_zero d = false) (concat (sub (singles l) a b))).
      { intros l a b HF. unfold singles. rewrite <- map_sub. fold (singles (sub l a b)). rewrite concat_singles. apply Forall_map. rewrite Forall_forall in *. intros z Hz. apply HF. eapply in_sub_in; eauto. }
      destruct r as [l u|l u|i j]; cbn [dread_one]; auto. destruct (nth_error us0 i) as [x|], (nth_error us1 j) as [y|]; cbn; auto. destruct (is_zero (dplus (snd x) (snd y))) eqn:Ez; cbn; auto. }
    rewrite Forall_forall in *. intros [x d] Hx. apply in_expand in Hx as [_ Hx]. auto.
  - unfold mread. rewrite expand_length by auto. pose proof (dread_small s) as HD. assert (length (concat (dread s)) <= length (dread s)) by (clear -HD; induction HD; cbn; auto; rewrite app_length; lia).
    pose proof (read_length P0 P1 p p' q q' s H) as RL. rewrite !map_length in RL. lia.
Qed.
End Diffs.
End Merge.
