(** * The cursor of a VecChunk presents the chunk *)
From Coq Require Import Arith Lia.
From Verif Require Import Base.Arrays Base.Collections Spec.ChunkCursorSpec Proofs.CursorP Proofs.TrieP Proofs.VecChunkP Proofs.FlatCursorP.
From Verif Require Import Base.Order.

Lemma le_pair {A B} {OA : Ord A} {OB : Ord B} (a1 a2 : A) (b1 b2 : B) : le (a1, b1) (a2, b2) <-> lt a1 a2 \/ (a1 = a2 /\ le b1 b2).
Proof.
  rewrite le_lteq, lt_pair, (le_lteq b1 b2). split.
  - intros [[H|[H1 H2]]|H]; auto. inversion H; auto.
  - intros [H|[-> [H| ->]]]; auto.
Qed.

Section Sorted.
Context {K V T R : Type} {OK : Ord K} {OV : Ord V} {TT : Time T} {DR : Diff R}.
Local Notation U := (K * V * T * R)%type.
Implicit Types (us : list U) (u : U).
Definition fkv (u : U) : K * V := fst (fst u).
Lemma fkv_pair u : fkv u = (fkey u, fval u).
Proof. destruct u as [[[] ?] ?]; reflexivity. Qed.
Definition rises us : Prop := forall i j a b, i <= j -> nth_error us i = Some a -> nth_error us j = Some b -> le (fkv a) (fkv b).
Lemma consolidated_rises us : consolidated (A:=K*V*T) us -> rises us.
Proof.
  intros [H _] i j a b Hij Ea Eb. apply Nat.le_lteq in Hij as [Hij| ->]; [|rewrite Ea in Eb; inversion Eb; apply le_refl].
  assert (HL : lt (A:=K*V*T) (fst a) (fst b)) by (eapply (sorted_nth (map fst us) i j); eauto; erewrite map_nth_error; eauto).
  destruct a as [[kva ta] ra], b as [[kvb tb] rb]. cbn [fst] in *. apply lt_pair in HL as [HL|[-> _]]; unfold fkv; cbn [fst]; [apply lt_le; auto|apply le_refl].
Qed.
Lemma rises_key us i j a b : rises us -> i <= j -> nth_error us i = Some a -> nth_error us j = Some b -> le (fkey a) (fkey b).
Proof.
  intros H Hij Ea Eb. specialize (H i j a b Hij Ea Eb). rewrite !fkv_pair in H. apply le_pair in H as [H|[-> _]]; [apply lt_le; auto|apply le_refl].
Qed.
Lemma rises_app us1 us2 : rises (us1 ++ us2) -> rises us1 /\ rises us2 /\ forall a b, In a us1 -> In b us2 -> le (fkv a) (fkv b).
Proof.
  intros H. split; [|split].
  - intros i j a b Hij Ea Eb. assert (j < length us1) by (apply nth_error_Some; congruence). apply (H i j); auto; rewrite nth_error_app1; auto; lia.
  - intros i j a b Hij Ea Eb. apply (H (length us1 + i) (length us1 + j)); [lia| |]; rewrite nth_error_app2 by lia; [replace (length us1 + i - length us1) with i by lia|replace (length us1 + j - length us1) with j by lia]; auto.
  - intros a b Ha Hb. apply In_nth_error in Ha as (i & Ea). apply In_nth_error in Hb as (j & Eb).
    assert (i < length us1) by (apply nth_error_Some; congruence).
    apply (H i (length us1 + j)); [lia| |]; [rewrite nth_error_app1; auto|rewrite nth_error_app2 by lia; replace (length us1 + j - length us1) with j by lia; auto].
Qed.
Lemma leading_len f us : length (leading f us) = prefix_len f us.
Proof. induction us as [|u us IH]; cbn [leading prefix_len length]; auto. destruct (f u); cbn [length]; auto. Qed.

(** Counting an initial segment. *)
Lemma upto_down f us : (forall i j a b, i <= j -> nth_error us i = Some a -> nth_error us j = Some b -> f b = true -> f a = true) -> exists n, upto f us n.
Proof.
  intros H. exists (prefix_len f us). split; [apply prefix_len_le|]. intros i x Ex.
  destruct (prefix_len_spec f us i x Ex) as [P1 P2]. destruct (Nat.ltb_spec i (prefix_len f us)) as [L|L]; auto.
  destruct (f x) eqn:Ef; auto. exfalso. assert (Hp : prefix_len f us < length us) by (assert (i < length us) by (apply nth_error_Some; congruence); lia).
  destruct (nth_error us (prefix_len f us)) as [y|] eqn:Ey; [|apply nth_error_None in Ey; lia].
  destruct (prefix_len_spec f us _ y Ey) as [_ P3]. rewrite (H _ _ _ _ L Ey Ex Ef) in P3. discriminate P3; auto.
Qed.

Section Cursor.
Variable us : list U.
Hypothesis Hus : consolidated (A:=K*V*T) us.
Let Hr : rises us := consolidated_rises us Hus.

Definition vrel (c : VecChunkCursor) (s : place) : Prop :=
  match s with
  | None => vcc_key_pos c = length us
  | Some (k, ov) =>
      (exists u, nth_error us (vcc_key_pos c) = Some u /\ fkey u = k) /\
      (forall j u, j < vcc_key_pos c -> nth_error us j = Some u -> lt (fkey u) k) /\
      match ov with
      | Some w => (exists u, nth_error us (vcc_val_pos c) = Some u /\ fkv u = (k, w)) /\
                  (forall j u, j < vcc_val_pos c -> nth_error us j = Some u -> lt (fkv u) (k, w))
      | None => vcc_key_pos c <= vcc_val_pos c <= length us /\
                (forall j u, j < vcc_val_pos c -> nth_error us j = Some u -> le (fkey u) k) /\
                (forall j u, vcc_val_pos c <= j -> nth_error us j = Some u -> lt k (fkey u))
      end
  end.

Lemma land_key P i : i <= length us -> (forall j u, nth_error us j = Some u -> P (fkey u) = (i <=? j)) ->
  vrel {| vcc_key_pos := i; vcc_val_pos := i |} (at_first (find (fun u => P (fkey u)) us)).
Proof.
  intros Hi HP. rewrite (find_split _ us i) by (intros; apply HP; auto). destruct (nth_error us i) as [u|] eqn:E; cbn [at_first option_map].
  - assert (HL : forall j x, j < i -> nth_error us j = Some x -> lt (fkey x) (fkey u)).
    { intros j x Hj Ex. apply not_le_lt. intros Hle. assert (Ek : fkey x = fkey u).
      { apply le_antisym; auto. apply (rises_key us j i); auto; lia. }
      pose proof (HP _ _ Ex) as H1. pose proof (HP _ _ E) as H2. rewrite Ek in H1. rewrite H1 in H2. rewrite Nat.leb_refl in H2. apply Nat.leb_le in H2. lia. }
    cbn [vrel vcc_key_pos vcc_val_pos]. split; [eauto|]. split; [auto|]. split; [exists u; split; auto; apply fkv_pair|].
    intros j x Hj Ex. rewrite fkv_pair. apply lt_pair. left. eauto.
  - cbn [vrel vcc_key_pos]. apply nth_error_None in E. lia.
Qed.

Lemma land_val k q i Q : (exists u, nth_error us q = Some u /\ fkey u = k) -> (forall j u, j < q -> nth_error us j = Some u -> lt (fkey u) k) ->
  q <= i <= length us ->
  (forall j u, nth_error us j = Some u -> fkey u = k -> Q (fval u) = (i <=? j)) ->
  (forall j u, j < i -> nth_error us j = Some u -> le (fkey u) k) ->
  vrel {| vcc_key_pos := q; vcc_val_pos := i |} (Some (k, first_val (find (fun u => eqb (fkey u) k && Q (fval u)) us))).
Proof.
  intros Hq Hlt Hi HQ Hle. assert (Hge : forall j u, i <= j -> nth_error us j = Some u -> le k (fkey u)).
  { destruct Hq as (x & Ex & <-). intros j u Hj Eu. apply (rises_key us q j); auto; lia. }
  destruct (nth_error us i) as [u|] eqn:E; [destruct (eqb_spec (fkey u) k) as [Ek|Ek]|].
  - rewrite (find_at _ us i u E).
    2:{ rewrite Ek, eqb_refl. cbn [andb]. rewrite (HQ _ _ E Ek). apply Nat.leb_refl. }
    2:{ intros j x Hj Ex. destruct (eqb_spec (fkey x) k) as [Ex'|]; auto. cbn [andb]. rewrite (HQ _ _ Ex Ex'). apply Nat.leb_gt; auto. }
    cbn [vrel vcc_key_pos vcc_val_pos first_val option_map]. split; [auto|]. split; [auto|]. split.
    + exists u. split; auto. rewrite fkv_pair, Ek; auto.
    + intros j x Hj Ex. assert (H : le (fkv x) (fkv u)) by (apply (Hr j i); auto; lia). apply le_lteq in H as [H|H].
      * rewrite (fkv_pair u), Ek in H. exact H.
      * exfalso. assert (E1 : fkey x = k) by (rewrite !fkv_pair in H; inversion H; congruence).
        assert (E2 : fval x = fval u) by (rewrite !fkv_pair in H; inversion H; congruence).
        pose proof (HQ _ _ Ex E1) as H1. pose proof (HQ _ _ E Ek) as H2. rewrite E2, H2, Nat.leb_refl in H1. symmetry in H1. apply Nat.leb_le in H1. lia.
  - assert (HG : forall j x, i <= j -> nth_error us j = Some x -> lt k (fkey x)).
    { intros j x Hj Ex. apply lt_le_trans with (fkey u).
      - pose proof (Hge i u (Nat.le_refl _) E) as H. apply le_lteq in H as [H|H]; auto. congruence.
      - apply (rises_key us i j); auto. }
    rewrite find_none_all.
    + cbn [vrel vcc_key_pos vcc_val_pos first_val option_map]. auto 6.
    + intros x Hx. apply In_nth_error in Hx as (j & Ex). destruct (eqb_spec (fkey x) k) as [Ex'|]; auto. cbn [andb].
      rewrite (HQ _ _ Ex Ex'). apply Nat.leb_gt. destruct (Nat.lt_ge_cases j i) as [L|L]; auto. exfalso. specialize (HG j x L Ex). rewrite Ex' in HG. exact (lt_irrefl _ HG).
  - apply nth_error_None in E. rewrite find_none_all.
    + cbn [vrel vcc_key_pos vcc_val_pos first_val option_map]. split; [auto|]. split; [auto|]. split; [lia|]. split; [auto|].
      intros j u Hj Eu. assert (j < length us) by (apply nth_error_Some; congruence). lia.
    + intros x Hx. apply In_nth_error in Hx as (j & Ex). destruct (eqb_spec (fkey x) k) as [Ex'|]; auto. cbn [andb].
      rewrite (HQ _ _ Ex Ex'). apply Nat.leb_gt. assert (j < length us) by (apply nth_error_Some; congruence). lia.
Qed.

Lemma leading_from f q x : nth_error us q = Some x -> f x = true ->
  (forall i j a b, q <= i -> i <= j -> nth_error us i = Some a -> nth_error us j = Some b -> f b = true -> f a = true) ->
  let n := q + length (leading f (skipn q us)) in
  q < n <= length us /\ forall j u, q <= j -> nth_error us j = Some u -> f u = (j <? n).
Proof.
  intros Ex Hx HD. rewrite leading_len. cbn zeta. pose proof (prefix_len_le f (skipn q us)) as Hl. rewrite skipn_length in Hl.
  assert (Hq : q < length us) by (apply nth_error_Some; congruence).
  destruct (upto_down f (skipn q us)) as (m & Hm & Hp).
  { intros i j a b Hij Ea Eb. rewrite nth_skipn in Ea, Eb. apply (HD (q + i) (q + j)); auto; lia. }
  assert (Em : prefix_len f (skipn q us) = m).
  { destruct (Nat.lt_trichotomy (prefix_len f (skipn q us)) m) as [L|[L|L]]; auto; exfalso.
    - destruct (nth_error (skipn q us) (prefix_len f (skipn q us))) as [y|] eqn:Ey; [|apply nth_error_None in Ey; lia].
      destruct (prefix_len_spec f _ _ y Ey) as [_ P]. rewrite (Hp _ _ Ey) in P. specialize (P eq_refl). apply Nat.ltb_ge in P. lia.
    - destruct (nth_error (skipn q us) m) as [y|] eqn:Ey; [|apply nth_error_None in Ey; rewrite skipn_length in Ey; lia].
      destruct (prefix_len_spec f _ _ y Ey) as [P _]. rewrite (Hp _ _ Ey) in P. specialize (P L). apply Nat.ltb_lt in P. lia. }
  rewrite Em in *. assert (H0 : f x = (0 <? m)) by (apply (Hp 0); rewrite nth_skipn, Nat.add_0_r; auto). rewrite Hx in H0. symmetry in H0. apply Nat.ltb_lt in H0.
  split; [lia|]. intros j u Hj Eu. rewrite (Hp (j - q) u) by (rewrite nth_skipn; replace (q + (j - q)) with j by lia; auto).
  destruct (Nat.ltb_spec (j - q) m), (Nat.ltb_spec j (q + m)); auto; lia.
Qed.

Lemma get_nth {A} (l : list A) i : get l i = nth_error l i.
Proof. reflexivity. Qed.

Lemma vrel_positions c k w : vrel c (Some (k, Some w)) -> vcc_key_pos c <= vcc_val_pos c < length us.
Proof.
  intros (_ & H2 & (u & Eu & Ekv) & _). split; [|apply nth_error_Some; congruence].
  destruct (Nat.lt_ge_cases (vcc_val_pos c) (vcc_key_pos c)) as [L|L]; auto. exfalso. specialize (H2 _ _ L Eu).
  rewrite fkv_pair in Ekv. inversion Ekv; subst. exact (lt_irrefl _ H2).
Qed.

Lemma leading_filter f (l : list U) : (forall i j a b, i <= j -> nth_error l i = Some a -> nth_error l j = Some b -> f b = true -> f a = true) -> leading f l = filter f l.
Proof.
  induction l as [|x l IH]; intros H; cbn [leading filter]; auto. destruct (f x) eqn:Ef.
  - f_equal. apply IH. intros i j a b Hij Ea Eb. apply (H (S i) (S j)); auto; lia.
  - symmetry. assert (G : forall y, In y l -> f y = false).
    { intros y Hy. apply In_nth_error in Hy as (j & Ej). destruct (f y) eqn:Ey; auto. rewrite (H 0 (S j) x y) in Ef; auto; lia. }
    clear - G. induction l as [|y l IH]; cbn [filter]; auto. rewrite G by (simpl; auto). apply IH. intros z Hz; apply G; simpl; auto.
Qed.
Lemma filter_none f (l : list U) : (forall y, In y l -> f y = false) -> filter f l = [].
Proof. induction l as [|y l IH]; intros G; cbn [filter]; auto. rewrite G by (simpl; auto). apply IH. intros z Hz; apply G; simpl; auto. Qed.

Lemma vrel_observe c s : vrel c s -> c_observe vcc_ops us c = Some (fobs us s).
Proof.
  intros H. unfold c_observe. cbn [c_get_key c_key_valid c_key c_get_val c_val_valid c_val c_map_times vcc_ops].
  unfold vcc_get_key, vcc_key_valid, vcc_get_val, vcc_map_times, vcc_val_valid, vcc_key, vcc_val. unfold get.
  destruct s as [[k ov]|]; cbn [vrel] in H.
  2:{ rewrite H, Nat.ltb_irrefl. reflexivity. }
  destruct H as ((x & Ex & Ek) & H2 & H3). assert (Hq : vcc_key_pos c < length us) by (apply nth_error_Some; congruence).
  apply Nat.ltb_lt in Hq. rewrite Hq, Ex. cbv beta iota. change (fst (fst (fst x))) with (fkey x). rewrite Ek, eqb_refl. cbn [andb].
  destruct ov as [w|].
  - destruct H3 as ((u & Eu & Ekv) & H4). assert (Hv : vcc_val_pos c < length us) by (apply nth_error_Some; congruence).
    apply Nat.ltb_lt in Hv. rewrite Hv, Eu. cbv beta iota. change (fst (fst (fst u))) with (fst (fkv u)). change (snd (fst (fst u))) with (snd (fkv u)). rewrite Ekv. cbn [fst snd]. rewrite !eqb_refl. cbn [andb].
    unfold fobs; cbn [option_map fst snd]. do 5 f_equal. unfold times_at. f_equal.
    rewrite <- (firstn_skipn (vcc_val_pos c) us) at 2. rewrite filter_app, filter_none.
    + cbn [app]. rewrite leading_filter.
      * apply filter_ext. intros y. change (fst (fst y)) with (fkv y). change (fst (fst u)) with (fkv u). rewrite Ekv, (fkv_pair y).
        destruct (eqb_spec (fkey y, fval y) (k, w)) as [E|E], (eqb_spec (fkey y) k), (eqb_spec (fval y) w); cbn [andb]; auto; subst; try congruence; inversion E; congruence.
      * intros i j a b Hij Ea Eb Hb. rewrite nth_skipn in Ea, Eb. change (fst (fst a)) with (fkv a). change (fst (fst b)) with (fkv b) in Hb. change (fst (fst u)) with (fkv u) in *.
        apply (proj1 (eqb_eq _ _)) in Hb. apply eqb_eq. apply le_antisym; [rewrite <- Hb; apply (Hr (vcc_val_pos c + i) (vcc_val_pos c + j)); auto; lia|apply (Hr (vcc_val_pos c) (vcc_val_pos c + i)); auto; lia].
    + intros y Hy. apply In_nth_error in Hy as (j & Ej). assert (Hj : j < vcc_val_pos c).
      { assert (j < length (firstn (vcc_val_pos c) us)) by (apply nth_error_Some; congruence). rewrite firstn_length in *. lia. }
      assert (Ej' : nth_error us j = Some y). { rewrite <- (firstn_skipn (vcc_val_pos c) us). rewrite nth_error_app1; auto. apply nth_error_Some; congruence. }
      specialize (H4 _ _ Hj Ej'). rewrite fkv_pair in H4. destruct (eqb_spec (fkey y) k) as [E1|]; auto. destruct (eqb_spec (fval y) w) as [E2|]; auto. rewrite E1, E2 in H4. exfalso; exact (lt_irrefl _ H4).
  - destruct H3 as (H3 & H4 & H5). cbn [fobs option_map fst snd].
    destruct (nth_error us (vcc_val_pos c)) as [u|] eqn:Eu.
    + assert (Hv : vcc_val_pos c < length us) by (apply nth_error_Some; congruence). apply Nat.ltb_lt in Hv. rewrite Hv.
      cbv beta iota. specialize (H5 _ _ (Nat.le_refl _) Eu). change (fst (fst (fst u))) with (fkey u). destruct (eqb_spec (fkey u) k) as [E|]; auto. rewrite E in H5. exfalso; exact (lt_irrefl _ H5).
    + apply nth_error_None in Eu. apply Nat.ltb_ge in Eu. rewrite Eu. reflexivity.
Qed.

Lemma vrel_nav c s op : vrel c s -> flegal s op -> exists c', c_nav vcc_ops us c op = Some c' /\ vrel c' (fmove us s op).
Proof.
  intros H HL. destruct op; cbn [c_nav c_step_key c_seek_key c_step_val c_seek_val c_rewind_keys c_rewind_vals vcc_ops].
  - (* StepKey *) unfold vcc_step_key. destruct s as [[k ov]|]; cbn [vrel fmove] in *.
    + destruct H as ((x & Ex & Ek) & H2 & _). assert (Hq : vcc_key_pos c < length us) by (apply nth_error_Some; congruence).
      apply Nat.leb_gt in Hq. rewrite Hq; unfold get; rewrite Ex. cbv beta iota zeta. eexists. split; [reflexivity|].
      destruct (leading_from (fun u => eqb (fst (fst (fst u))) (fst (fst (fst x)))) (vcc_key_pos c) x Ex) as [L1 L2].
      { apply eqb_refl. }
      { intros i j a b Hi Hij Ea Eb Hb. change (fst (fst (fst a))) with (fkey a). change (fst (fst (fst b))) with (fkey b) in Hb. change (fst (fst (fst x))) with (fkey x) in *.
        apply (proj1 (eqb_eq _ _)) in Hb. apply eqb_eq. apply le_antisym; [rewrite <- Hb; apply (rises_key us i j); auto|apply (rises_key us (vcc_key_pos c) i); auto]. }
      apply (land_key (fun y => ltb k y)); [lia|]. intros j u Eu. set (n := vcc_key_pos c + _) in *.
      destruct (Nat.lt_ge_cases j (vcc_key_pos c)) as [L|L].
      * replace (n <=? j) with false by (symmetry; apply Nat.leb_gt; lia). apply ltb_ge. apply lt_le. eauto.
      * specialize (L2 j u L Eu). change (fst (fst (fst u))) with (fkey u) in L2. change (fst (fst (fst x))) with (fkey x) in L2. rewrite Ek in L2.
        assert (Hle : le k (fkey u)) by (rewrite <- Ek; apply (rises_key us (vcc_key_pos c) j); auto).
        destruct (Nat.ltb_spec j n) as [L'|L'].
        -- replace (n <=? j) with false by (symmetry; apply Nat.leb_gt; lia). apply (proj1 (eqb_eq _ _)) in L2. rewrite L2. apply ltb_ge, le_refl.
        -- replace (n <=? j) with true by (symmetry; apply Nat.leb_le; lia). apply ltb_lt. apply le_lteq in Hle as [|E]; auto. rewrite <- E, eqb_refl in L2. discriminate.
    + rewrite H, Nat.leb_refl. eauto.
  - (* SeekKey *) unfold vcc_seek_key.
    destruct (upto_down (fun u => ltb (fst (fst (fst u))) k) us) as (n & Hn).
    { intros i j a b Hij Ea Eb Hb. apply ltb_lt in Hb. apply ltb_lt. eapply le_lt_trans; [|exact Hb]. apply (rises_key us i j); auto. }
    rewrite (gallop_ok 1 (le_n 1) _ us _ n Hn).
    2:{ destruct s as [[k' ov]|]; cbn [vrel] in H; [|lia]. destruct H as ((x & Ex & _) & _). assert (vcc_key_pos c < length us) by (apply nth_error_Some; congruence). lia. }
    eexists. split; [reflexivity|]. destruct Hn as [Hn1 Hn2]. destruct s as [[k0 ov]|]; cbn [vrel fmove] in *.
    + destruct H as ((x & Ex & Ek) & H2 & _). assert (vcc_key_pos c < length us) by (apply nth_error_Some; congruence).
      apply (land_key (fun y => leb k0 y && leb k y)); [lia|]. intros j u Eu. specialize (Hn2 _ _ Eu). change (fst (fst (fst u))) with (fkey u) in Hn2.
      destruct (Nat.lt_ge_cases j (vcc_key_pos c)) as [L|L].
      * replace (leb k0 (fkey u)) with false by (symmetry; apply leb_gt; eauto). symmetry; apply Nat.leb_gt; lia.
      * replace (leb k0 (fkey u)) with true by (symmetry; apply leb_le; rewrite <- Ek; apply (rises_key us (vcc_key_pos c) j); auto). cbn [andb].
        destruct (Nat.ltb_spec j n) as [L'|L'].
        -- replace (_ <=? j) with false by (symmetry; apply Nat.leb_gt; lia). apply leb_gt, ltb_lt; auto.
        -- replace (_ <=? j) with true by (symmetry; apply Nat.leb_le; lia). apply leb_le, ltb_ge; auto.
    + cbn [vcc_key_pos]. lia.
  - (* StepVal *) destruct s as [[k ov]|]; cbn [flegal] in HL; [|congruence]. unfold vcc_step_val, vcc_val_valid. unfold get. destruct ov as [w|].
    + pose proof (vrel_positions _ _ _ H) as Hp. destruct H as ((x & Ex & Ek) & H2 & (u & Eu & Ekv) & H4). cbn [fmove].
      rewrite Ex, Eu. replace (vcc_key_pos c <? length us) with true by (symmetry; apply Nat.ltb_lt; lia). replace (vcc_val_pos c <? length us) with true by (symmetry; apply Nat.ltb_lt; lia).
      cbv beta iota. cbn [andb]. change (fst (fst (fst u))) with (fst (fkv u)). change (fst (fst (fst x))) with (fkey x). rewrite Ekv, Ek. cbn [fst]. rewrite eqb_refl.
      eexists. split; [reflexivity|].
      destruct (leading_from (fun u0 => eqb (fst (fst u0)) (fst (fst u))) (vcc_val_pos c) u Eu) as [L1 L2].
      { apply eqb_refl. }
      { intros i j a b Hi Hij Ea Eb Hb. change (fst (fst a)) with (fkv a). change (fst (fst b)) with (fkv b) in Hb. change (fst (fst u)) with (fkv u) in *.
        apply (proj1 (eqb_eq _ _)) in Hb. apply eqb_eq. apply le_antisym; [rewrite <- Hb; apply (Hr i j); auto|apply (Hr (vcc_val_pos c) i); auto]. }
      set (n := vcc_val_pos c + _) in *. apply (land_val k _ n (fun y => ltb w y)); eauto; [lia| |].
      * intros j y Ey Eyk. destruct (Nat.lt_ge_cases j (vcc_val_pos c)) as [L|L].
        -- replace (n <=? j) with false by (symmetry; apply Nat.leb_gt; lia). apply ltb_ge. specialize (H4 _ _ L Ey). rewrite fkv_pair, Eyk in H4. apply lt_pair in H4 as [H4|[_ H4]]; [exfalso; exact (lt_irrefl _ H4)|apply lt_le; auto].
        -- specialize (L2 j y L Ey). change (fst (fst y)) with (fkv y) in L2. change (fst (fst u)) with (fkv u) in L2. rewrite Ekv in L2.
           assert (Hle : le (fkv u) (fkv y)) by (apply (Hr (vcc_val_pos c) j); auto). rewrite Ekv, fkv_pair, Eyk in Hle. apply le_pair in Hle as [Hle|[_ Hle]]; [exfalso; exact (lt_irrefl _ Hle)|].
           destruct (Nat.ltb_spec j n) as [L'|L'].
           ++ replace (n <=? j) with false by (symmetry; apply Nat.leb_gt; lia). apply (proj1 (eqb_eq _ _)) in L2. rewrite fkv_pair in L2. inversion L2. apply ltb_ge, le_refl.
           ++ replace (n <=? j) with true by (symmetry; apply Nat.leb_le; lia). apply ltb_lt. apply le_lteq in Hle as [|E]; auto. rewrite fkv_pair, Eyk, <- E, eqb_refl in L2. discriminate.
      * intros j y Hj Ey. destruct (Nat.lt_ge_cases j (vcc_val_pos c)) as [L|L].
        -- specialize (H4 _ _ L Ey). rewrite fkv_pair in H4. apply lt_pair in H4 as [H4|[-> _]]; [apply lt_le; auto|apply le_refl].
        -- specialize (L2 j y L Ey). apply Nat.ltb_lt in Hj. rewrite Hj in L2. apply (proj1 (eqb_eq _ _)) in L2. change (fkv y = fkv u) in L2. rewrite Ekv, fkv_pair in L2. inversion L2. apply le_refl.
    + cbn [fmove]. pose proof H as Hv. destruct H as ((x & Ex & Ek) & H2 & H3 & H4 & H5). rewrite Ex. destruct (nth_error us (vcc_val_pos c)) as [u|] eqn:Eu.
      * specialize (H5 _ _ (Nat.le_refl _) Eu). cbv beta iota. change (fst (fst (fst u))) with (fkey u). change (fst (fst (fst x))) with (fkey x). rewrite Ek.
        replace (eqb (fkey u) k) with false by (symmetry; apply eqb_neq; intros E; rewrite E in H5; exact (lt_irrefl _ H5)).
        destruct ((vcc_key_pos c <? length us) && (vcc_val_pos c <? length us)); eauto.
      * apply nth_error_None in Eu. replace (vcc_val_pos c <? length us) with false by (symmetry; apply Nat.ltb_ge; auto). rewrite Bool.andb_false_r. eauto.
  - (* SeekVal *) destruct s as [[k ov]|]; cbn [flegal] in HL; [|congruence]. unfold vcc_seek_val, vcc_key_valid, vcc_key. unfold get.
    assert (Hk := H). destruct Hk as ((x & Ex & Ek) & H2 & _). replace (vcc_key_pos c <? length us) with true by (symmetry; apply Nat.ltb_lt, nth_error_Some; congruence).
    rewrite Ex. cbv beta iota. change (fst (fst (fst x))) with (fkey x). rewrite Ek.
    destruct (upto_down (fun u => ltb (fst (fst u)) (k, v)) us) as (n & Hn).
    { intros i j a b Hij Ea Eb Hb. apply ltb_lt in Hb. apply ltb_lt. eapply le_lt_trans; [|exact Hb]. apply (Hr i j); auto. }
    rewrite (gallop_ok 1 (le_n 1) _ us _ n Hn).
    2:{ destruct ov; [apply vrel_positions in H; lia|destruct H as (_ & _ & H & _); lia]. }
    eexists. split; [reflexivity|]. destruct Hn as [Hn1 Hn2]. destruct ov as [w|]; cbn [fmove].
    + pose proof (vrel_positions _ _ _ H) as Hp. destruct H as (_ & _ & (u & Eu & Ekv) & H4).
      apply (land_val k _ _ (fun y => leb w y && leb v y)); eauto; [lia| |].
      * intros j y Ey Eyk. specialize (Hn2 _ _ Ey). change (fst (fst y)) with (fkv y) in Hn2. rewrite fkv_pair, Eyk in Hn2.
        destruct (Nat.lt_ge_cases j (vcc_val_pos c)) as [L|L].
        -- specialize (H4 _ _ L Ey). rewrite fkv_pair, Eyk in H4. apply lt_pair in H4 as [H4|[_ H4]]; [exfalso; exact (lt_irrefl _ H4)|].
           replace (leb w (fval y)) with false by (symmetry; apply leb_gt; auto). symmetry; apply Nat.leb_gt; lia.
        -- assert (Hle : le (fkv u) (fkv y)) by (apply (Hr (vcc_val_pos c) j); auto). rewrite Ekv, fkv_pair, Eyk in Hle. apply le_pair in Hle as [Hle|[_ Hle]]; [exfalso; exact (lt_irrefl _ Hle)|].
           replace (leb w (fval y)) with true by (symmetry; apply leb_le; auto). cbn [andb].
           destruct (Nat.ltb_spec j n) as [L'|L'].
           ++ replace (_ <=? j) with false by (symmetry; apply Nat.leb_gt; lia). apply leb_gt. apply ltb_lt in Hn2. apply lt_pair in Hn2 as [Hn2|[_ Hn2]]; auto. exfalso; exact (lt_irrefl _ Hn2).
           ++ replace (_ <=? j) with true by (symmetry; apply Nat.leb_le; lia). apply leb_le. apply ltb_ge in Hn2. apply le_pair in Hn2 as [Hn2|[_ Hn2]]; auto. exfalso; exact (lt_irrefl _ Hn2).
      * intros j y Hj Ey. specialize (Hn2 _ _ Ey). destruct (Nat.lt_ge_cases j (vcc_val_pos c)) as [L|L].
        -- specialize (H4 _ _ L Ey). rewrite fkv_pair in H4. apply lt_pair in H4 as [H4|[-> _]]; [apply lt_le; auto|apply le_refl].
        -- replace (j <? n) with true in Hn2 by (symmetry; apply Nat.ltb_lt; lia). apply ltb_lt in Hn2. change (fst (fst y)) with (fkv y) in Hn2. rewrite fkv_pair in Hn2. apply lt_pair in Hn2 as [Hn2|[-> _]]; [apply lt_le; auto|apply le_refl].
    + replace (Nat.max (vcc_val_pos c) n) with (vcc_val_pos c).
      * destruct c; exact H.
      * destruct H as (_ & _ & H3 & H4 & H5). destruct (Nat.lt_ge_cases (vcc_val_pos c) n) as [L|L]; [exfalso|lia].
        destruct (nth_error us (vcc_val_pos c)) as [y|] eqn:Ey; [|apply nth_error_None in Ey; lia].
        specialize (Hn2 _ _ Ey). apply Nat.ltb_lt in L. rewrite L in Hn2. apply ltb_lt in Hn2. change (fst (fst y)) with (fkv y) in Hn2. rewrite fkv_pair in Hn2.
        specialize (H5 _ _ (Nat.le_refl _) Ey). apply lt_pair in Hn2 as [Hn2|[Hn2 _]]; [exact (lt_asym _ _ H5 Hn2)|rewrite Hn2 in H5; exact (lt_irrefl _ H5)].
  - (* RewindKeys *) unfold vcc_rewind_keys. eexists. split; [reflexivity|].
    replace (fmove us s RewindKeys) with (at_first (find (fun u => (fun _ => true) (fkey u)) us)) by (destruct s as [[? []]|]; reflexivity).
    apply (land_key (fun _ => true) 0); [lia|]. intros; reflexivity.
  - (* RewindVals *) destruct s as [[k ov]|]; cbn [flegal] in HL; [|congruence]. unfold vcc_rewind_vals. eexists. split; [reflexivity|].
    destruct H as ((x & Ex & Ek) & H2 & _).
    replace (fmove us (Some (k, ov)) RewindVals) with (Some (k, first_val (find (fun u => eqb (fkey u) k && (fun _ => true) (fval u)) us))).
    + apply (land_val k _ _ (fun _ => true)); eauto.
      * split; [auto|]. apply Nat.lt_le_incl, nth_error_Some; congruence.
      * intros j u Eu Eku. symmetry. apply Nat.leb_le. destruct (Nat.lt_ge_cases j (vcc_key_pos c)) as [L|L]; auto. specialize (H2 _ _ L Eu). rewrite Eku in H2. exfalso; exact (lt_irrefl _ H2).
      * intros j u Hj Eu. apply lt_le. eauto.
    + cbn [fmove]. destruct ov; do 2 f_equal; f_equal; apply find_ext; intros; apply Bool.andb_true_r.
Qed.

Lemma vec_presents : presents vcc_ops us vcc_new (trie_of us).
Proof.
  assert (W : wf_trie (trie_of us)) by (apply trie_of_wf; auto).
  apply presents_by_simulation with (Rel := fun c p => in_range (trie_of us) p /\ vrel c (sem (trie_of us) p)).
  - destruct (sem_start _ W) as [H1 H2]. split; auto. rewrite H2, flat_trie_of. cbn [fmove]. apply (land_key (fun _ => true) 0); [lia|]. intros; reflexivity.
  - intros c p [H1 H2]. rewrite (vrel_observe c _ H2), observation_fobs, flat_trie_of by auto. reflexivity.
  - intros c p op [H1 H2] HL. apply legal_flegal in HL. destruct (vrel_nav c _ op H2 HL) as (c' & E & H'). exists c'. split; auto.
    split; [apply in_range_move; auto|]. rewrite sem_move, flat_trie_of; auto.
Qed.
End Cursor.

Lemma vec_navigable : NavigableLaws (fun _ => True) (fun c : list U => c) vcc_ops (fun _ => vcc_new) vc_bounds.
Proof.
  constructor.
  - intros c _ _ HC. apply vec_presents; auto.
  - intros c f l _ Ef El. unfold vc_bounds, get. rewrite Ef. destruct c as [|u c]; [discriminate|]. cbn [length Nat.eqb] in *. rewrite El. reflexivity.
Qed.
End Sorted.
