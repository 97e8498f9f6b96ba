(** Proofs about the model of consolidation.rs. *)
From Verif Require Export Model.ConsolidationM Base.Collections.

Section ConsolidationP.
Context {A R : Type} {OA : Ord A} {DR : Diff R}.
Implicit Types l : list (A * R).

(** Weak sorting by key. *)
Inductive key_sorted : list (A * R) -> Prop :=
| ks_nil : key_sorted []
| ks_cons : forall x l, Forall (fun y => le (fst x) (fst y)) l -> key_sorted l -> key_sorted (x :: l).

Lemma insert_sorted_perm x l : Permutation (insert_sorted x l) (x :: l).
Proof.
  induction l as [|y l IH]; simpl; auto. destruct (leb (fst x) (fst y)); auto.
  eapply perm_trans; [apply perm_skip, IH | apply perm_swap].
Qed.

Lemma isort_perm l : Permutation (isort l) l.
Proof.
  induction l as [|x l IH]; simpl; auto. eapply perm_trans; [apply insert_sorted_perm | apply perm_skip, IH].
Qed.

Lemma insert_sorted_sorted x l : key_sorted l -> key_sorted (insert_sorted x l).
Proof.
  induction 1 as [|y l HF Hs IH]; simpl.
  - constructor; constructor.
  - destruct (leb (fst x) (fst y)) eqn:E.
    + apply leb_le in E. constructor; [|constructor; auto]. constructor; auto.
      eapply Forall_impl; [|exact HF]. intros z; apply le_trans; auto.
    + apply leb_gt in E. constructor; auto.
      eapply Permutation_Forall; [symmetry; apply insert_sorted_perm|]. constructor; auto using lt_le.
Qed.

Lemma isort_sorted l : key_sorted (isort l).
Proof. induction l as [|x l IH]; simpl; [constructor | apply insert_sorted_sorted; auto]. Qed.

Lemma keep_nonzero_weight x : same_weights (keep_nonzero x) [x].
Proof.
  intros a. unfold keep_nonzero. destruct (is_zero (snd x)) eqn:E; auto.
  apply is_zero_spec in E. rewrite weight_cons, E, weight_nil, dplus_0_l. destruct (eqb _ _); auto.
Qed.

Lemma compact_go_weight cur l : same_weights (compact_go cur l) (cur :: l).
Proof.
  revert cur; induction l as [|x l IH]; intros cur a; simpl.
  - apply keep_nonzero_weight.
  - destruct (eqb_spec (fst x) (fst cur)) as [E|E].
    + rewrite IH, !weight_cons; simpl. rewrite E. destruct (eqb (fst cur) a); auto. apply dplus_assoc.
    + rewrite weight_app, IH, keep_nonzero_weight, (weight_cons cur (x :: l)), weight_cons, weight_nil.
      destruct (eqb (fst cur) a); rewrite ?dplus_0_r, ?dplus_0_l; auto.
Qed.

Lemma compact_weight l : same_weights (compact l) l.
Proof. destruct l; simpl; [apply same_weights_refl | apply compact_go_weight]. Qed.

Lemma compact_go_bound cur l : key_sorted (cur :: l) -> Forall (fun y => le (fst cur) (fst y)) (compact_go cur l).
Proof.
  revert cur; induction l as [|x l IH]; intros cur H; simpl.
  - unfold keep_nonzero; destruct (is_zero _); constructor; auto using le_refl.
  - inversion H as [|? ? HF Hs]; subst. inversion HF as [|? ? Hx HF']; subst. inversion Hs as [|? ? HFx Hl]; subst.
    destruct (eqb_spec (fst x) (fst cur)) as [E|E].
    + apply (IH (fst cur, dplus (snd cur) (snd x))). constructor; auto.
    + apply Forall_app; split.
      * unfold keep_nonzero; destruct (is_zero _); constructor; auto using le_refl.
      * eapply Forall_impl; [|apply IH; auto]. intros y; simpl; apply le_trans; auto.
Qed.

Lemma compact_go_consolidated cur l : key_sorted (cur :: l) -> consolidated (compact_go cur l).
Proof.
  assert (forall x, consolidated (keep_nonzero x)) as Hk.
  { intros x; unfold keep_nonzero; destruct (is_zero (snd x)) eqn:E; split; simpl; constructor; auto. }
  revert cur; induction l as [|x l IH]; intros cur H; simpl; auto.
  inversion H as [|? ? HF Hs]; subst. inversion HF as [|? ? Hx HF']; subst. inversion Hs as [|? ? HFx Hl]; subst.
  destruct (eqb_spec (fst x) (fst cur)) as [E|E].
  - apply IH. constructor; auto.
  - apply consolidated_app; repeat split; auto.
    + apply Hk.
    + apply Hk.
    + apply IH; auto.
    + apply IH; auto.
    + intros y z Hy Hz. assert (fst y = fst cur) as ->.
      { unfold keep_nonzero in Hy; destruct (is_zero _); simpl in Hy; [tauto|]. destruct Hy as [<-|[]]; auto. }
      pose proof (compact_go_bound x l Hs) as Hb. rewrite Forall_forall in Hb. apply Hb in Hz.
      eapply lt_le_trans; [|exact Hz]. apply le_lteq in Hx as [Hx|Hx]; auto. congruence.
Qed.

Lemma compact_consolidated l : key_sorted l -> consolidated (compact l).
Proof. destruct l; simpl; [intros; apply consolidated_nil | apply compact_go_consolidated]. Qed.

Theorem consolidate_weight l : same_weights (consolidate l) l.
Proof.
  unfold consolidate. eapply same_weights_trans; [apply compact_weight | apply weight_perm, isort_perm].
Qed.

Theorem consolidate_consolidated l : consolidated (consolidate l).
Proof. apply compact_consolidated, isort_sorted. Qed.

Lemma consolidate_canonical l1 l2 : same_weights l1 l2 -> consolidate l1 = consolidate l2.
Proof.
  intros H. apply consolidated_unique; auto using consolidate_consolidated.
  eapply same_weights_trans; [apply consolidate_weight|]. eapply same_weights_trans; [exact H|].
  apply same_weights_sym, consolidate_weight.
Qed.

Lemma consolidate_fixed l : consolidated l -> consolidate l = l.
Proof.
  intros H. apply consolidated_unique; auto using consolidate_consolidated, consolidate_weight.
Qed.

Lemma compact_go_length cur l : length (compact_go cur l) <= S (length l).
Proof.
  revert cur; induction l as [|x l IH]; intros cur; simpl.
  - unfold keep_nonzero. destruct (is_zero (snd cur)); simpl; lia.
  - destruct (eqb (fst x) (fst cur)).
    + etransitivity; [apply IH|]. lia.
    + rewrite app_length. pose proof (IH x). unfold keep_nonzero. destruct (is_zero (snd cur)); simpl; lia.
Qed.

Lemma consolidate_length l : length (consolidate l) <= length l.
Proof.
  unfold consolidate. rewrite <- (Permutation_length (isort_perm l)).
  destruct (isort l) as [|x s]; simpl; auto. apply compact_go_length.
Qed.

Lemma consolidate_incl l x : In x (map fst (consolidate l)) -> In x (map fst l).
Proof.
  intros H. apply (consolidated_in_weight _ _ (consolidate_consolidated l)) in H.
  rewrite consolidate_weight in H. destruct (in_dec eq_dec x (map fst l)) as [Hi|Hi]; auto.
  exfalso; apply H, weight_notin; auto.
Qed.

(** ** The in-place code computes [compact] of the sorted slice *)
Section InPlaceP.
Variable srt : list (A * R) -> list (A * R).
Hypothesis srt_perm : forall l, Permutation (srt l) l.
Hypothesis srt_sorted : forall l, key_sorted (srt l).

Definition cs_inv (s : list (A * R)) (i : nat) (st : list (A * R) * nat * R) : Prop :=
  let '(slice, offset, accum) := st in
  length slice = length s /\ offset < i /\ skipn i slice = skipn i s /\
  get slice (i - 1) = get s (i - 1) /\
  exists y, get s (i - 1) = Some y /\ firstn offset slice ++ compact_go (fst y, accum) (skipn i s) = compact s.

Lemma cs_body_ok s i st : 1 <= i -> i < length s -> cs_inv s i st ->
  exists st', cs_body st i = Some st' /\ cs_inv s (S i) st'.
Proof.
  destruct st as [[slice offset] accum]. intros Hi Hlt [Hlen [Hoff [Hskip [Hget [y [Hy Hres]]]]]].
  destruct (get_some s i Hlt) as [x Hx].
  assert (get slice i = Some x) as Hx'.
  { rewrite (skipn_get _ _ _ Hx) in Hskip. apply get_skipn in Hskip. tauto. }
  unfold cs_body. rewrite Hx'. rewrite Hget, Hy.
  rewrite (skipn_get _ _ _ Hx) in Hres. simpl in Hres.
  destruct (eqb_spec (fst x) (fst y)) as [E|E].
  - eexists; split; [reflexivity|].
    repeat split; auto; try lia.
    + rewrite (skipn_get _ _ _ Hx), (skipn_get _ _ _ Hx') in Hskip. congruence.
    + replace (S i - 1) with i by lia. congruence.
    + replace (S i - 1) with i by lia. exists x; split; auto. rewrite E; exact Hres.
  - destruct (is_zero accum) eqn:Ez; simpl.
    + rewrite Hx'. eexists; split; [reflexivity|].
      unfold keep_nonzero in Hres; simpl in Hres. rewrite Ez in Hres; simpl in Hres.
      repeat split; auto; try lia.
      * rewrite (skipn_get _ _ _ Hx), (skipn_get _ _ _ Hx') in Hskip. congruence.
      * replace (S i - 1) with i by lia. congruence.
      * replace (S i - 1) with i by lia. exists x; split; auto. destruct x; auto.
    + destruct (get_some slice offset) as [z Hz]; [lia|].
      rewrite Hy in Hget. rewrite (swap_some _ _ _ _ _ Hz Hget).
      set (s1 := upd (upd slice offset y) (i - 1) z).
      assert (exists w, get s1 offset = Some w /\ fst w = fst y) as [w [Hw Hwy]].
      { unfold s1. destruct (Nat.eq_dec (i - 1) offset) as [Eo|Eo].
        - rewrite Eo. rewrite get_upd_eq by (rewrite length_upd; lia).
          exists z; split; auto. rewrite Eo in Hget. congruence.
        - rewrite get_upd_ne by auto. rewrite get_upd_eq by lia. eauto. }
      rewrite Hw. assert (length s1 = length slice) as Hl1 by (unfold s1; rewrite !length_upd; auto).
      rewrite put_some by lia.
      assert (get (upd s1 offset (fst w, accum)) i = Some x) as Hx''.
      { unfold s1. rewrite !get_upd_ne by lia. auto. }
      rewrite Hx''. eexists; split; [reflexivity|].
      unfold keep_nonzero in Hres; simpl in Hres. rewrite Ez in Hres; simpl in Hres.
      repeat split.
      * rewrite length_upd; lia.
      * lia.
      * unfold s1. rewrite !skipn_upd_lt by lia.
        rewrite (skipn_get _ _ _ Hx), (skipn_get _ _ _ Hx') in Hskip. congruence.
      * replace (S i - 1) with i by lia. congruence.
      * replace (S i - 1) with i by lia. exists x; split; auto.
        replace (offset + 1) with (S offset) by lia.
        rewrite (firstn_S_get _ _ (fst w, accum)) by (apply get_upd_eq; lia).
        unfold s1. rewrite !firstn_upd_ge by lia. rewrite <- app_assoc; simpl. rewrite Hwy. destruct x; exact Hres.
Qed.

Lemma cs_loop_ok s n : forall i st, 1 <= i -> i + n <= length s -> cs_inv s i st ->
  exists st', cs_loop st (seq i n) = Some st' /\ cs_inv s (i + n) st'.
Proof.
  induction n as [|n IH]; intros i st Hi Hn Hinv; simpl.
  - exists st; split; auto. rewrite Nat.add_0_r; auto.
  - destruct (cs_body_ok s i st) as [st1 [E1 Hinv1]]; auto; try lia.
    unfold cs_loop; simpl. rewrite E1. destruct (IH (S i) st1) as [st' [E' H']]; auto; try lia.
    exists st'; split; auto. replace (i + S n) with (S i + n) by lia. auto.
Qed.

Lemma firstn_app_exact {B} (l1 l2 : list B) n : n = length l1 -> firstn n (l1 ++ l2) = l1.
Proof. intros ->. rewrite firstn_app, Nat.sub_diag, firstn_all, firstn_O, app_nil_r; auto. Qed.

Lemma consolidate_slice_slow_ok l : l <> [] ->
  exists slice len, consolidate_slice_slow srt l = Some (slice, len) /\
                    len <= length slice /\ firstn len slice = compact (srt l).
Proof.
  intros Hne. unfold consolidate_slice_slow. set (s := srt l).
  assert (length s = length l) as Hlen by (apply Permutation_length, srt_perm).
  assert (0 < length s) as Hpos by (destruct l; simpl in *; [congruence | lia]).
  destruct (get_some s 0 Hpos) as [x Hx]. rewrite Hx.
  destruct (cs_loop_ok s (length s - 1) 1 (s, 0, snd x)) as [[[slice offset] accum] [E Hinv]]; try lia.
  { repeat split; auto. exists x; split; auto. simpl.
    destruct s as [|x' s']; simpl in *; [lia|]. inversion Hx; subst. simpl. destruct x; auto. }
  rewrite E. destruct Hinv as [Hl [Hoff [_ [Hg [y [Hy Hres]]]]]].
  replace (1 + (length s - 1)) with (length s) in * by lia.
  rewrite skipn_all in Hres. simpl in Hres. unfold keep_nonzero in Hres; simpl in Hres.
  destruct (is_zero accum) eqn:Ez; simpl.
  - exists slice, offset; split; auto. rewrite app_nil_r in Hres. split; auto; lia.
  - destruct (get_some slice offset) as [z Hz]; [lia|]. rewrite Hy in Hg.
    rewrite Hl. rewrite (swap_some _ _ _ _ _ Hz Hg).
    set (s1 := upd (upd slice offset y) (length s - 1) z).
    assert (exists w, get s1 offset = Some w /\ fst w = fst y) as [w [Hw Hwy]].
    { unfold s1. destruct (Nat.eq_dec (length s - 1) offset) as [Eo|Eo].
      - rewrite Eo. rewrite get_upd_eq by (rewrite length_upd; lia).
        exists z; split; auto. rewrite Eo in Hg. congruence.
      - rewrite get_upd_ne by auto. rewrite get_upd_eq by lia. eauto. }
    rewrite Hw. assert (length s1 = length slice) as Hl1 by (unfold s1; rewrite !length_upd; auto).
    rewrite put_some by lia. eexists _, _; split; [reflexivity|]. split.
    + rewrite length_upd; lia.
    + replace (offset + 1) with (S offset) by lia.
      rewrite (firstn_S_get _ _ (fst w, accum)) by (apply get_upd_eq; lia).
      unfold s1. rewrite !firstn_upd_ge by lia. rewrite Hwy. exact Hres.
Qed.

Lemma compact_srt l : compact (srt l) = consolidate l.
Proof.
  apply consolidated_unique; auto using consolidate_consolidated, compact_consolidated.
  eapply same_weights_trans; [apply compact_weight|]. eapply same_weights_trans; [apply weight_perm, srt_perm|].
  apply same_weights_sym, consolidate_weight.
Qed.

Lemma consolidate_slice_ok l :
  exists slice len, consolidate_slice srt l = Some (slice, len) /\
                    len <= length slice /\ firstn len slice = consolidate l.
Proof.
  unfold consolidate_slice. destruct (Nat.ltb_spec 1 (length l)) as [H|H].
  - destruct (consolidate_slice_slow_ok l) as [slice [len [E [H1 H2]]]].
    + destruct l; simpl in H; [lia | congruence].
    + exists slice, len; rewrite <- compact_srt; auto.
  - destruct l as [|x [|y l]]; simpl in H; [| |lia].
    + exists [], 0; repeat split; auto.
    + exists [x]. simpl. unfold consolidate; simpl. unfold keep_nonzero.
      destruct (is_zero (snd x)); simpl; eexists; repeat split; auto.
Qed.

Theorem consolidate_from_inplace_ok vec offset : offset <= length vec ->
  consolidate_from_inplace srt vec offset = Some (consolidate_from vec offset).
Proof.
  intros H. unfold consolidate_from_inplace, consolidate_from.
  assert (offset <=? length vec = true) as -> by (apply Nat.leb_le; auto).
  destruct (consolidate_slice_ok (skipn offset vec)) as [slice [len [E [H1 H2]]]]. rewrite E. f_equal.
  rewrite firstn_app, firstn_firstn, firstn_length. rewrite Nat.min_r by lia.
  f_equal. replace (offset + len - Nat.min offset (length vec)) with len by lia. exact H2.
Qed.

Theorem consolidate_inplace_ok vec : consolidate_inplace srt vec = Some (consolidate vec).
Proof.
  unfold consolidate_inplace. rewrite consolidate_from_inplace_ok by lia. reflexivity.
Qed.
End InPlaceP.
End ConsolidationP.
