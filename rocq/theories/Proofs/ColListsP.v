(** * Lists of lists: what the operations on [Lists] do to the lists *)
From Coq Require Import Arith Lia.
From Verif Require Import Base.Arrays Base.Collections Model.ColumnarM.
From Verif Require Import Base.Order.

Lemma skipn_skipn {X} a : forall b (l : list X), skipn a (skipn b l) = skipn (a + b) l.
Proof. intros b. induction b as [|b IH]; intros l; [rewrite Nat.add_0_r; reflexivity|]. rewrite Nat.add_succ_r. destruct l as [|x l]; [rewrite !skipn_nil; reflexivity|]. exact (IH l). Qed.
Lemma nth_error_firstn_lt {X} (l : list X) : forall n i, i < n -> nth_error (firstn n l) i = nth_error l i.
Proof. induction l as [|x l IH]; intros [|n] i H; try lia; [destruct i; auto|]. destruct i; cbn; auto. apply IH. lia. Qed.
Section Sub.
Context {X : Type}.
Implicit Types (l : list X).
Definition sub l (lo hi : nat) : list X := firstn (hi - lo) (skipn lo l).
Lemma slice_ok l lo hi : lo <= hi -> hi <= length l -> slice l lo hi = Some (sub l lo hi).
Proof. intros H1 H2. unfold slice. rewrite (proj2 (Nat.leb_le _ _) H1), (proj2 (Nat.leb_le _ _) H2). reflexivity. Qed.
Lemma sub_length l lo hi : hi <= length l -> length (sub l lo hi) = hi - lo.
Proof. intros H. unfold sub. rewrite firstn_length, skipn_length. lia. Qed.
Lemma sub_split l lo m hi : lo <= m -> m <= hi -> sub l lo hi = sub l lo m ++ sub l m hi.
Proof.
  intros H1 H2. unfold sub. replace (hi - lo) with ((m - lo) + (hi - m)) by lia.
  rewrite <- (firstn_skipn (m - lo) (firstn (m - lo + (hi - m)) (skipn lo l))). rewrite firstn_firstn, Nat.min_l by lia. f_equal.
  rewrite skipn_firstn_comm. f_equal; [lia|]. rewrite skipn_skipn. f_equal. lia.
Qed.
Lemma sub_nil l lo : sub l lo lo = [].
Proof. unfold sub. rewrite Nat.sub_diag. reflexivity. Qed.
Lemma sub_one l i x : nth_error l i = Some x -> sub l i (S i) = [x].
Proof. intros H. unfold sub. rewrite (skipn_get l i x H). replace (S i - i) with 1 by lia. reflexivity. Qed.
Lemma sub_cons l i hi x : nth_error l i = Some x -> i < hi -> sub l i hi = x :: sub l (S i) hi.
Proof. intros H L. rewrite (sub_split l i (S i) hi) by lia. rewrite (sub_one l i x H). reflexivity. Qed.
Lemma sub_all l : sub l 0 (length l) = l.
Proof. unfold sub. rewrite Nat.sub_0_r. apply firstn_all. Qed.
Lemma sub_0 l n : sub l 0 n = firstn n l.
Proof. unfold sub. rewrite Nat.sub_0_r. reflexivity. Qed.
Lemma sub_skipn l n : sub l n (length l) = skipn n l.
Proof. unfold sub. apply firstn_all2. rewrite skipn_length. lia. Qed.
Lemma in_sub l lo hi x : In x (sub l lo hi) -> exists i, lo <= i < hi /\ nth_error l i = Some x.
Proof.
  intros H. apply In_nth_error in H as (j & H). unfold sub in H.
  assert (j < length (firstn (hi - lo) (skipn lo l))) by (apply nth_error_Some; congruence). rewrite firstn_length in H0.
  exists (lo + j). split; [lia|]. rewrite <- H. rewrite nth_error_firstn_lt by lia.
  clear. revert j. revert l. induction lo as [|lo IH]; intros l j; cbn; auto. destruct l; cbn; [destruct j; auto|auto].
Qed.
Lemma sub_in l lo hi i x : lo <= i < hi -> nth_error l i = Some x -> In x (sub l lo hi).
Proof. intros H E. rewrite (sub_split l lo i hi) by lia. apply in_or_app. right. rewrite (sub_cons l i hi x E) by lia. left. reflexivity. Qed.
Lemma in_sub_in l lo hi x : In x (sub l lo hi) -> In x l.
Proof. intros H. apply in_sub in H as (i & _ & H). eapply nth_error_In; eauto. Qed.
End Sub.
Lemma map_sub {X Y} (f : X -> Y) l lo hi : map f (sub l lo hi) = sub (map f l) lo hi.
Proof. unfold sub. rewrite <- firstn_map, skipn_map. reflexivity. Qed.

Section Groups.
Context {X : Type}.
Implicit Types (gs : list (list X)) (g : list X).
Fixpoint ends (a : nat) gs : list nat := match gs with [] => [] | g :: gs => a + length g :: ends (a + length g) gs end.
Definition lists_of gs : Lists X := {| ls_bounds := ends 0 gs; ls_values := concat gs |}.
(** The last list still open. *)
Definition open_of gs g : Lists X := {| ls_bounds := ends 0 gs; ls_values := concat gs ++ g |}.
Definition off gs i : nat := length (concat (firstn i gs)).

Lemma ends_length gs : forall a, length (ends a gs) = length gs.
Proof. induction gs as [|g gs IH]; intros a; cbn; auto. Qed.
Lemma ends_app gs1 : forall a gs2, ends a (gs1 ++ gs2) = ends a gs1 ++ ends (a + length (concat gs1)) gs2.
Proof.
  induction gs1 as [|g gs1 IH]; intros a gs2; cbn [app ends concat]; [rewrite Nat.add_0_r; auto|].
  rewrite IH, app_length, Nat.add_assoc. reflexivity.
Qed.
Lemma ends_nth gs : forall a i, i < length gs -> nth_error (ends a gs) i = Some (a + off gs (S i)).
Proof.
  induction gs as [|g gs IH]; intros a [|i] H; cbn [length] in H; try lia; cbn [ends nth_error].
  - unfold off. cbn. rewrite app_nil_r. reflexivity.
  - rewrite IH by lia. unfold off. cbn [firstn concat]. rewrite !app_length. f_equal. lia.
Qed.
Lemma off_0 gs : off gs 0 = 0.
Proof. reflexivity. Qed.
Lemma off_S gs i g : nth_error gs i = Some g -> off gs (S i) = off gs i + length g.
Proof. intros H. unfold off. rewrite (firstn_S_get gs i g H), concat_app, app_length. cbn. rewrite app_nil_r. reflexivity. Qed.
Lemma off_all gs n : length gs <= n -> off gs n = length (concat gs).
Proof. intros H. unfold off. rewrite firstn_all2 by auto. reflexivity. Qed.
Lemma off_mono gs i j : i <= j -> off gs i <= off gs j.
Proof.
  intros H. unfold off. rewrite <- (firstn_skipn i (firstn j gs)), firstn_firstn, Nat.min_l by auto.
  rewrite concat_app, app_length. lia.
Qed.
Lemma off_le gs i : off gs i <= length (concat gs).
Proof. rewrite <- (off_all gs (Nat.max i (length gs))) by lia. apply off_mono. lia. Qed.
Lemma off_lt gs i j : Forall (fun g => g <> []) gs -> i < j -> i < length gs -> off gs i < off gs j.
Proof.
  intros HF Hij Hi. destruct (get_some gs i Hi) as (g & E). unfold get in E. assert (off gs (S i) <= off gs j) by (apply off_mono; lia).
  rewrite (off_S _ _ _ E) in H. rewrite Forall_forall in HF. specialize (HF g (nth_error_In _ _ E)). destruct g; [congruence|]. cbn in H. lia.
Qed.
Lemma child_range_ok gs i : i < length gs -> child_range (ls_bounds (lists_of gs)) i = Some (off gs i, off gs (S i)).
Proof.
  intros H. unfold child_range, get. cbn [ls_bounds lists_of]. rewrite ends_nth by auto. destruct i as [|i]; [reflexivity|].
  rewrite ends_nth by lia. reflexivity.
Qed.
Lemma ends_child_range gs i : i < length gs -> child_range (ends 0 gs) i = Some (off gs i, off gs (S i)).
Proof. apply child_range_ok. Qed.
Lemma concat_sub_off gs i : concat (firstn i gs) = firstn (off gs i) (concat gs).
Proof.
  unfold off. rewrite <- (firstn_skipn i gs) at 3. rewrite concat_app, firstn_app, Nat.sub_diag, firstn_all, firstn_O, app_nil_r. reflexivity.
Qed.
Lemma concat_skip_off gs i : concat (skipn i gs) = skipn (off gs i) (concat gs).
Proof.
  unfold off. rewrite <- (firstn_skipn i gs) at 3. rewrite concat_app, skipn_app, Nat.sub_diag, skipn_all. reflexivity.
Qed.
Lemma sub_concat gs lo hi : lo <= hi -> sub (concat gs) (off gs lo) (off gs hi) = concat (sub gs lo hi).
Proof.
  intros H. unfold sub. rewrite concat_sub_off, concat_skip_off. f_equal.
  unfold off. rewrite <- (firstn_skipn lo (firstn hi gs)), firstn_firstn, Nat.min_l by auto.
  rewrite concat_app, app_length, skipn_firstn_comm. lia.
Qed.
Lemma sub_group gs i g : nth_error gs i = Some g -> sub (concat gs) (off gs i) (off gs (S i)) = g.
Proof. intros H. rewrite sub_concat by lia. rewrite (sub_one gs i g H). cbn. apply app_nil_r. Qed.
Lemma last_ends gs a : last (ends a gs) a = a + length (concat gs).
Proof.
  destruct gs as [|g gs] using rev_ind; [cbn; lia|]. rewrite ends_app. cbn [ends]. rewrite last_last, concat_app, app_length. cbn. rewrite app_nil_r. lia.
Qed.

Lemma lists_open gs : lists_of gs = open_of gs [].
Proof. unfold lists_of, open_of. rewrite app_nil_r. reflexivity. Qed.
Lemma seal_open gs g : seal_list (open_of gs g) = lists_of (gs ++ [g]).
Proof.
  unfold seal_list, open_of, lists_of. cbn [ls_bounds ls_values]. rewrite ends_app, concat_app, app_length. cbn. rewrite app_nil_r. reflexivity.
Qed.
Lemma push_values_open gs g vs : push_values (open_of gs g) vs = open_of gs (g ++ vs).
Proof. unfold push_values, open_of. cbn [ls_bounds ls_values]. rewrite app_assoc. reflexivity. Qed.
Lemma push_value_open gs g x : push_value (open_of gs g) x = open_of gs (g ++ [x]).
Proof. unfold push_value, open_of. cbn [ls_bounds ls_values]. rewrite app_assoc. reflexivity. Qed.
Lemma open_lists gs g : open_list (lists_of (gs ++ [g])) = open_of gs g.
Proof.
  unfold open_list, lists_of, open_of. cbn [ls_bounds ls_values]. rewrite ends_app. cbn [ends]. rewrite removelast_last, concat_app. cbn. rewrite app_nil_r. reflexivity.
Qed.
Lemma shift_ends gs : forall a lower shift, lower <= a -> shift_bounds (ends a gs) lower shift = Some (ends (shift + (a - lower)) gs).
Proof.
  induction gs as [|g gs IH]; intros a lower shift H; cbn [ends shift_bounds]; auto.
  rewrite (proj2 (Nat.leb_le _ _)) by lia. rewrite IH by lia. f_equal. f_equal; [lia|]. f_equal. lia.
Qed.
Lemma sub_ends gs lo hi : lo <= hi -> hi <= length gs -> sub (ends 0 gs) lo hi = ends (off gs lo) (sub gs lo hi).
Proof.
  intros H1 H2. rewrite <- (firstn_skipn lo gs) at 1. rewrite ends_app. unfold sub.
  rewrite skipn_app, ends_length, firstn_length, Nat.min_l by lia. rewrite (skipn_all2 (ends 0 (firstn lo gs))) by (rewrite ends_length, firstn_length; lia).
  rewrite Nat.sub_diag. cbn [skipn app]. rewrite Nat.add_0_l. fold (off gs lo). generalize (off gs lo) as a. generalize (hi - lo) as n. clear.
  induction (skipn lo gs) as [|g l IH]; intros [|n] a; cbn; auto. f_equal. apply IH.
Qed.
Lemma extend_ok out gs lo hi : lo <= hi -> hi <= length gs -> extend_lists (lists_of out) (lists_of gs) lo hi = Some (lists_of (out ++ sub gs lo hi)).
Proof.
  intros H1 H2. unfold extend_lists. destruct (Nat.ltb_spec lo hi) as [L|L].
  - rewrite child_range_ok by lia. unfold get. cbn [ls_bounds ls_values lists_of]. rewrite ends_nth by lia. replace (S (hi - 1)) with hi by lia.
    rewrite slice_ok; [|apply off_mono; lia|apply off_le]. rewrite slice_ok by (rewrite ?ends_length; lia).
    rewrite sub_ends by auto. rewrite shift_ends by lia. f_equal. unfold lists_of. f_equal; [rewrite ends_app; do 2 f_equal; lia|].
    rewrite concat_app. cbn [Nat.add]. rewrite sub_concat by lia. reflexivity.
  - assert (lo = hi) by lia. subst. rewrite sub_nil, app_nil_r. reflexivity.
Qed.
Lemma child_range_open gs g i : i < length gs -> child_range (ls_bounds (open_of gs g)) i = Some (off gs i, off gs (S i)).
Proof. apply child_range_ok. Qed.
Lemma clamp_ok gs base lo hi item_lo item_hi n : forall i, i + n = hi -> lo <= i -> hi <= length gs -> item_hi = off gs hi -> off gs lo <= item_lo -> item_lo <= off gs (S lo) ->
  clamp_bounds (ls_bounds (lists_of gs)) (seq i n) base item_lo item_hi = Some (map (fun j => base + off gs (S j) - item_lo) (seq i n)).
Proof.
  induction n as [|n IH]; intros i H1 H2 H3 H4 H5 H6; cbn [seq clamp_bounds map]; auto.
  rewrite child_range_ok by lia. rewrite IH by lia. assert (off gs (S i) <= off gs hi) by (apply off_mono; lia).
  assert (off gs (S lo) <= off gs (S i)) by (apply off_mono; lia). rewrite Nat.min_l by lia. rewrite (proj2 (Nat.leb_le _ _)) by lia. reflexivity.
Qed.
End Groups.

(** ** Choosing items by a bitmap *)
Section Choose.
Context {X : Type}.
Implicit Types (l : list X) (bm : list bool).
Definition choose l bm : list X := map fst (filter snd (List.combine l bm)).
Lemma choose_nil_l bm : choose [] bm = [].
Proof. reflexivity. Qed.
Lemma choose_cons x l b bm : choose (x :: l) (b :: bm) = if b then x :: choose l bm else choose l bm.
Proof. unfold choose. cbn. destruct b; reflexivity. Qed.
Lemma combine_app {Y} (a1 a2 : list X) (b1 b2 : list Y) : length a1 = length b1 -> List.combine (a1 ++ a2) (b1 ++ b2) = List.combine a1 b1 ++ List.combine a2 b2.
Proof. revert b1; induction a1 as [|x a1 IH]; intros [|y b1] H; cbn in *; try lia; auto. f_equal. apply IH. lia. Qed.
Lemma choose_app a1 a2 b1 b2 : length a1 = length b1 -> choose (a1 ++ a2) (b1 ++ b2) = choose a1 b1 ++ choose a2 b2.
Proof. intros H. unfold choose. rewrite combine_app by auto. rewrite filter_app, map_app. reflexivity. Qed.
Lemma choose_map (f : X -> bool) l : choose l (map f l) = filter f l.
Proof. induction l as [|x l IH]; auto. cbn [map]. rewrite choose_cons, IH. reflexivity. Qed.
Lemma choose_in l bm x : In x (choose l bm) -> In x l.
Proof.
  unfold choose. intros H. apply in_map_iff in H as ([y b] & <- & H). apply filter_In in H as [H _]. apply in_combine_l in H. auto.
Qed.
End Choose.
Lemma choose_map_l {X Y} (f : X -> Y) l bm : choose (map f l) bm = map f (choose l bm).
Proof. revert bm; induction l as [|x l IH]; intros [|b bm]; cbn [map]; auto. rewrite !choose_cons, IH. destruct b; reflexivity. Qed.
Lemma choose_sorted {X} {OX : Ord X} (l : list X) bm : strictly_sorted l -> strictly_sorted (choose l bm).
Proof.
  revert bm; induction l as [|x l IH]; intros [|b bm] H; auto; try (unfold choose; cbn; constructor).
  apply strictly_sorted_cons_inv in H as [H HF]. rewrite choose_cons. destruct b; auto.
  apply strictly_sorted_cons; auto. rewrite Forall_forall in *. intros y Hy. apply HF. eapply choose_in; eauto.
Qed.

Definition nonemptyb {X} (g : list X) : bool := match g with [] => false | _ => true end.
Section Retain.
Context {X : Type}.
Implicit Types (gs : list (list X)).
Fixpoint kept_groups gs (keep : list bool) : list (list X) :=
  match gs with [] => [] | g :: gs => choose g (firstn (length g) keep) :: kept_groups gs (skipn (length g) keep) end.
Lemma retain_loop_ok gs keep : forall rest pre out bm, gs = pre ++ rest -> length keep = length (concat gs) ->
  retain_loop (lists_of gs) keep (seq (length pre) (length rest)) (lists_of out) bm =
  Some (lists_of (out ++ filter nonemptyb (kept_groups rest (skipn (length (concat pre)) keep))), bm ++ map nonemptyb (kept_groups rest (skipn (length (concat pre)) keep))).
Proof.
  induction rest as [|g rest IH]; intros pre out bm E HL; cbn [length seq retain_loop kept_groups filter map].
  - rewrite !app_nil_r. reflexivity.
  - assert (Eg : nth_error gs (length pre) = Some g) by (rewrite E, nth_error_app2, Nat.sub_diag by lia; reflexivity).
    rewrite child_range_ok by (rewrite E, app_length; cbn; lia).
    assert (Ho : off gs (length pre) = length (concat pre)) by (unfold off; rewrite E, firstn_app, Nat.sub_diag, firstn_all, firstn_O, app_nil_r; auto).
    assert (Hm : off gs (length pre) <= off gs (S (length pre))) by (apply off_mono; lia). assert (Hle := off_le gs (S (length pre))).
    rewrite slice_ok by auto. rewrite slice_ok by lia. cbn [ls_values lists_of].
    rewrite (sub_group gs _ g Eg). assert (Ek : sub keep (off gs (length pre)) (off gs (S (length pre))) = firstn (length g) (skipn (length (concat pre)) keep)).
    { unfold sub. rewrite (off_S _ _ _ Eg), Ho. f_equal. lia. }
    rewrite Ek. fold (choose g (firstn (length g) (skipn (length (concat pre)) keep))). set (c := choose g _).
    rewrite lists_open, push_values_open. cbn [app]. cbn [ls_bounds ls_values open_of]. rewrite last_ends, app_length, Nat.add_0_l.
    specialize (IH (pre ++ [g])). rewrite app_length, concat_app, app_length in IH. cbn [length concat] in IH. rewrite app_nil_r in IH.
    replace (length pre + 1) with (S (length pre)) in IH by lia.
    assert (Es : skipn (length g) (skipn (length (concat pre)) keep) = skipn (length (concat pre) + length g) keep) by (rewrite skipn_skipn; f_equal; lia).
    rewrite Es. destruct (Nat.ltb_spec (length (concat out)) (length (concat out) + length c)) as [L|L].
    + rewrite seal_open. rewrite IH by (auto; rewrite E, <- app_assoc; reflexivity).
      destruct c as [|x c']; [cbn in L; lia|]. cbn [nonemptyb]. rewrite <- !app_assoc. reflexivity.
    + destruct c as [|x c']; [|cbn in L; lia]. rewrite <- lists_open. rewrite IH by (auto; rewrite E, <- app_assoc; reflexivity).
      cbn [nonemptyb]. rewrite <- !app_assoc. reflexivity.
Qed.
Lemma kept_length gs : forall keep, length (kept_groups gs keep) = length gs.
Proof. induction gs as [|g gs IH]; intros keep; cbn; auto. Qed.
Lemma retain_items_ok gs keep : length keep = length (concat gs) ->
  retain_items (lists_of gs) keep = Some (lists_of (filter nonemptyb (kept_groups gs keep)), map nonemptyb (kept_groups gs keep)).
Proof.
  intros H. unfold retain_items. change (ls_values (lists_of gs)) with (concat gs). rewrite H, Nat.eqb_refl.
  assert (El : length (ls_bounds (lists_of gs)) = length gs) by apply ends_length. rewrite !El.
  pose proof (retain_loop_ok gs keep gs [] [] [] eq_refl H) as E. cbn [app length concat skipn] in E. change (lists_of []) with (@ls_new X) in E.
  rewrite E, map_length, kept_length, Nat.eqb_refl. reflexivity.
Qed.
Lemma kept_concat gs : forall keep, length keep = length (concat gs) -> concat (kept_groups gs keep) = choose (concat gs) keep.
Proof.
  induction gs as [|g gs IH]; intros keep H; cbn [kept_groups concat] in *; auto. rewrite app_length in H.
  rewrite IH by (rewrite skipn_length; lia). rewrite <- (firstn_skipn (length g) keep) at 3. symmetry. apply choose_app. rewrite firstn_length. lia.
Qed.
Lemma concat_nonempty gs : concat (filter nonemptyb gs) = concat gs.
Proof. induction gs as [|g gs IH]; auto. destruct g as [|x g]; cbn [filter nonemptyb concat]; rewrite IH; auto. Qed.
Lemma kept_sorted {OX : Ord X} gs : forall keep, Forall strictly_sorted gs -> Forall strictly_sorted (kept_groups gs keep).
Proof.
  induction gs as [|g gs IH]; intros keep H; cbn [kept_groups]; constructor; inversion H; subst; auto. apply choose_sorted. auto.
Qed.
End Retain.

(** ** Paths *)
Section Expand.
Context {A X : Type}.
Implicit Types (P : list A) (gs : list (list X)).
Fixpoint expand P gs : list (A * X) := match P, gs with p :: P, g :: gs => map (pair p) g ++ expand P gs | _, _ => [] end.
Lemma expand_length P gs : length P = length gs -> length (expand P gs) = length (concat gs).
Proof. revert gs; induction P as [|p P IH]; intros [|g gs] H; cbn in *; try lia; auto. rewrite !app_length, map_length, IH; auto. Qed.
Lemma expand_snd P gs : length P = length gs -> map snd (expand P gs) = concat gs.
Proof.
  revert gs; induction P as [|p P IH]; intros [|g gs] H; cbn in *; try lia; auto. rewrite map_app, map_map, IH by auto. cbn. rewrite map_id. reflexivity.
Qed.
Lemma expand_app P1 P2 gs1 gs2 : length P1 = length gs1 -> expand (P1 ++ P2) (gs1 ++ gs2) = expand P1 gs1 ++ expand P2 gs2.
Proof. revert gs1; induction P1 as [|p P1 IH]; intros [|g gs1] H; cbn in *; try lia; auto. rewrite IH by lia. apply app_assoc. Qed.
Lemma expand_firstn P gs i : length P = length gs -> expand (firstn i P) (firstn i gs) = firstn (off gs i) (expand P gs).
Proof.
  intros H. rewrite <- (firstn_skipn i P) at 2. rewrite <- (firstn_skipn i gs) at 3. rewrite expand_app by (rewrite !firstn_length; lia).
  unfold off. rewrite <- (expand_length (firstn i P) (firstn i gs)) by (rewrite !firstn_length; lia).
  rewrite firstn_app, Nat.sub_diag, firstn_all, firstn_O, app_nil_r. reflexivity.
Qed.
Lemma expand_skipn P gs i : length P = length gs -> expand (skipn i P) (skipn i gs) = skipn (off gs i) (expand P gs).
Proof.
  intros H. rewrite <- (firstn_skipn i P) at 2. rewrite <- (firstn_skipn i gs) at 3. rewrite expand_app by (rewrite !firstn_length; lia).
  unfold off. rewrite <- (expand_length (firstn i P) (firstn i gs)) by (rewrite !firstn_length; lia).
  rewrite skipn_app, Nat.sub_diag, skipn_all. reflexivity.
Qed.
Lemma expand_sub P gs lo hi : length P = length gs -> lo <= hi -> expand (sub P lo hi) (sub gs lo hi) = sub (expand P gs) (off gs lo) (off gs hi).
Proof.
  intros H L. unfold sub. rewrite expand_firstn by (rewrite !skipn_length; lia). rewrite expand_skipn by auto. f_equal.
  unfold off. rewrite <- (firstn_skipn lo (firstn hi gs)), firstn_firstn, Nat.min_l by auto. rewrite concat_app, app_length, skipn_firstn_comm. lia.
Qed.
Lemma in_expand P gs a x : In (a, x) (expand P gs) -> In a P /\ In x (concat gs).
Proof.
  revert gs; induction P as [|p P IH]; intros [|g gs] H; cbn in *; try tauto. apply in_app_or in H as [H|H].
  - apply in_map_iff in H as (y & E & H). inversion E; subst. split; auto. apply in_or_app. auto.
  - apply IH in H as [H1 H2]. split; auto. apply in_or_app. auto.
Qed.
Lemma expand_nth P gs i a g n x : nth_error P i = Some a -> nth_error gs i = Some g -> nth_error g n = Some x -> length P = length gs ->
  nth_error (expand P gs) (off gs i + n) = Some (a, x).
Proof.
  intros EP EG Ex HL.
  assert (Es : skipn (off gs i) (expand P gs) = map (pair a) g ++ skipn (off gs (S i)) (expand P gs)).
  { rewrite <- !expand_skipn by auto. rewrite (skipn_get P i a EP), (skipn_get gs i g EG). reflexivity. }
  rewrite <- (firstn_skipn (off gs i) (expand P gs)), Es. assert (Hf : length (firstn (off gs i) (expand P gs)) = off gs i).
  { rewrite firstn_length, expand_length by auto. pose proof (off_le gs i). lia. }
  rewrite nth_error_app2 by lia. rewrite Hf. replace (off gs i + n - off gs i) with n by lia.
  rewrite nth_error_app1 by (rewrite map_length; apply nth_error_Some; congruence). rewrite (map_nth_error (pair a) n g Ex). reflexivity.
Qed.
Lemma expand_choose P gs : forall keep, length P = length gs -> length keep = length (concat gs) ->
  expand (choose P (map nonemptyb (kept_groups gs keep))) (filter nonemptyb (kept_groups gs keep)) = choose (expand P gs) keep.
Proof.
  revert gs; induction P as [|p P IH]; intros [|g gs] keep H1 H2; cbn [length concat] in *; try lia; auto.
  cbn [kept_groups map filter]. rewrite choose_cons. rewrite app_length in H2. cbn [expand].
  transitivity (choose (map (pair p) g ++ expand P gs) (firstn (length g) keep ++ skipn (length g) keep)); [|rewrite firstn_skipn; reflexivity].
  rewrite choose_app by (rewrite map_length, firstn_length; lia). rewrite choose_map_l.
  specialize (IH gs (skipn (length g) keep)). rewrite skipn_length in IH. specialize (IH ltac:(lia) ltac:(lia)).
  destruct (choose g (firstn (length g) keep)) as [|x c]; cbn [nonemptyb]; [exact IH|]. cbn [expand]. rewrite IH. reflexivity.
Qed.
Lemma choose_length_kept (P : list A) gs : forall keep, length P = length gs -> length (choose P (map nonemptyb (kept_groups gs keep))) = length (filter nonemptyb (kept_groups gs keep)).
Proof.
  revert gs; induction P as [|p P IH]; intros [|g gs] keep H1; cbn [length] in *; try lia; auto. cbn [kept_groups map filter]. rewrite choose_cons.
  destruct (choose g (firstn (length g) keep)) as [|x c]; cbn [nonemptyb length]; auto.
Qed.
(** The lists are determined by the paths. *)
Lemma expand_inj P P' gs gs' : NoDup P -> NoDup P' -> length P = length gs -> length P' = length gs' ->
  Forall (fun g => g <> []) gs -> Forall (fun g => g <> []) gs' -> expand P gs = expand P' gs' -> P = P' /\ gs = gs'.
Proof.
  revert gs P' gs'; induction P as [|p P IH]; intros gs P' gs' N N' H1 H2 F F' E.
  - destruct gs; [|discriminate]. destruct P' as [|p' P'], gs' as [|g' gs']; cbn in H2; try lia; auto. inversion F'; subst. destruct g'; [congruence|discriminate].
  - destruct gs as [|g gs]; [discriminate|]. inversion F as [|? ? Fg F2]; subst. inversion N as [|? ? N1 N2]; subst.
    destruct P' as [|p' P'], gs' as [|g' gs']; cbn in H2; try lia.
    + destruct g; [congruence|discriminate].
    + inversion F' as [|? ? Fg' F2']; subst. inversion N' as [|? ? N1' N2']; subst. cbn [expand] in E.
      assert (p = p') by (destruct g; [congruence|]; destruct g'; [congruence|]; cbn in E; inversion E; auto). subst p'.
      assert (Hg : forall (P1 P2 : list A) (G1 G2 : list (list X)) (g1 g2 : list X), ~ In p P1 -> ~ In p P2 -> map (pair p) g1 ++ expand P1 G1 = map (pair p) g2 ++ expand P2 G2 -> g1 = g2 /\ expand P1 G1 = expand P2 G2).
      { clear. intros P1 P2 G1 G2 g1. induction g1 as [|x g1 IHg]; intros [|y g2] N1 N2 E; cbn in E; auto.
        - exfalso. apply N1. assert (In (p, y) (expand P1 G1)) by (rewrite E; left; auto). apply in_expand in H. tauto.
        - exfalso. apply N2. assert (In (p, x) (expand P2 G2)) by (rewrite <- E; left; auto). apply in_expand in H. tauto.
        - inversion E; subst. destruct (IHg g2) as [-> E2]; auto. }
      destruct (Hg _ _ _ _ _ _ N1 N1' E) as [-> E2]. destruct (IH gs P' gs') as [-> ->]; auto.
Qed.
End Expand.
Lemma expand_sorted {A X} {OA : Ord A} {OX : Ord X} (P : list A) (gs : list (list X)) : strictly_sorted P -> Forall strictly_sorted gs -> strictly_sorted (expand P gs).
Proof.
  revert gs; induction P as [|p P IH]; intros [|g gs] H HF; cbn [expand]; try constructor. apply strictly_sorted_cons_inv in H as [H HP]. inversion HF as [|? ? Hg HF2]; subst.
  apply strictly_sorted_app. split; [|split].
  - clear - Hg. induction g as [|x g IH]; cbn; [constructor|]. apply strictly_sorted_cons_inv in Hg as [Hg HF]. apply strictly_sorted_cons; auto.
    rewrite Forall_map. eapply Forall_impl; [|exact HF]. intros y Hy. apply lt_pair. right. auto.
  - apply IH; auto.
  - intros a b Ha Hb. apply in_map_iff in Ha as (x & <- & Hx). destruct b as [q y]. apply in_expand in Hb as [Hb _]. apply lt_pair. left. rewrite Forall_forall in HP. auto.
Qed.
