(** * Proofs about the ord_neu batches *)
From Verif Require Import Base.Arrays Base.Collections Spec.Presents Model.LatticeM Model.ConsolidationM Model.ContainerM Model.OrdNeuM
  Proofs.LatticeP Proofs.ConsolidationP Proofs.ContainerP Proofs.CursorP Proofs.TrieP.

(** ** The update layer *)
Section Upds.
Context {T R : Type} {TT : Time T} {DR : Diff R} {OR : Ord R}.
Implicit Types (u : Upds T R) (ls : list (list (T * R))) (b : UpdsBuilder T R) (l : list (T * R)).

Record upds_rep u ls : Prop := {
  ur_len : length (u_times u) = length (u_diffs u);
  ur_offs : length (u_offs u) = S (length ls);
  ur_last : nth_error (u_offs u) (length ls) = Some (length (u_times u));
  ur_ne : Forall (fun l => l <> []) ls;
  ur_get : forall i l, nth_error ls i = Some l -> upds_list u i = Some l }.

Lemma upds_new_rep : upds_rep upds_new [].
Proof. constructor; simpl; auto. intros [|i] l H; discriminate. Qed.

Definition upds_ext u u' : Prop := exists o t d,
  u_offs u' = u_offs u ++ o /\ u_times u' = u_times u ++ t /\ u_diffs u' = u_diffs u ++ d.

Lemma get_app_some {A} (l l' : list A) i x : get l i = Some x -> get (l ++ l') i = Some x.
Proof. intros H. rewrite get_app_l; auto. eapply get_lt; eauto. Qed.

Lemma upds_range_ext u u' n : upds_ext u u' -> forall lo l, upds_range u n lo = Some l -> upds_range u' n lo = Some l.
Proof.
  intros (o & t & d & E1 & E2 & E3). induction n as [|n IH]; intros lo l H; simpl in *; auto.
  unfold upds_get_abs in *. destruct (get (u_times u) lo) as [x|] eqn:Ex; [|discriminate].
  destruct (get (u_diffs u) lo) as [y|] eqn:Ey; [|discriminate].
  destruct (upds_range u n (S lo)) as [l'|] eqn:El; [|discriminate]. inversion H; subst.
  rewrite E2, E3. rewrite (get_app_some _ _ _ _ Ex), (get_app_some _ _ _ _ Ey), (IH _ _ El). reflexivity.
Qed.

Lemma upds_list_ext u u' i l : upds_ext u u' -> upds_list u i = Some l -> upds_list u' i = Some l.
Proof.
  intros HE H. pose proof HE as (o & t & d & E1 & E2 & E3). unfold upds_list, upds_bounds in *.
  destruct (get (u_offs u) i) as [x|] eqn:Ex; [|discriminate].
  destruct (get (u_offs u) (i + 1)) as [y|] eqn:Ey; [|discriminate].
  rewrite E1, (get_app_some _ _ _ _ Ex), (get_app_some _ _ _ _ Ey).
  destruct (x =? y); [destruct (0 <? x); [|discriminate]|]; eapply upds_range_ext; eauto.
Qed.

Lemma upds_range_tail u st pt pd : length pt = length pd -> u_times u = pt ++ map fst st -> u_diffs u = pd ++ map snd st ->
  upds_range u (length st) (length pt) = Some st.
Proof.
  intros Hl Ht Hd. revert pt pd Hl Ht Hd. induction st as [|[t r] st IH]; intros pt pd Hl Ht Hd; simpl in *; auto.
  unfold upds_get_abs. rewrite Ht, Hd, (get_app_r pt), (get_app_r pd) by lia.
  replace (length pt - length pd) with 0 by lia. rewrite Nat.sub_diag. unfold get; simpl.
  specialize (IH (pt ++ [t]) (pd ++ [r])). rewrite !app_length in IH. simpl in IH.
  replace (length pt + 1) with (S (length pt)) in IH by lia. rewrite <- !app_assoc in IH. rewrite IH; auto; lia.
Qed.

Lemma upds_rep_push u ls u' st : upds_rep u ls -> upds_ext u u' -> st <> [] ->
  length (u_times u') = length (u_diffs u') -> length (u_offs u') = S (S (length ls)) ->
  nth_error (u_offs u') (S (length ls)) = Some (length (u_times u')) ->
  upds_list u' (length ls) = Some st -> upds_rep u' (ls ++ [st]).
Proof.
  intros [R1 R2 R3 R4 R5] HE Hne H1 H2 H3 H4. constructor; auto.
  - rewrite app_length; simpl. lia.
  - rewrite app_length; simpl. replace (length ls + 1) with (S (length ls)) by lia. auto.
  - apply Forall_app; split; auto.
  - intros i l H. destruct (Nat.lt_ge_cases i (length ls)) as [Hi|Hi].
    + rewrite nth_error_app1 in H by auto. eapply upds_list_ext; eauto.
    + rewrite nth_error_app2 in H by auto. destruct (i - length ls) as [|j] eqn:Ej.
      * simpl in H. inversion H; subst. replace i with (length ls) by lia. auto.
      * destruct j; discriminate.
Qed.

Lemma ub_conventional_ok b u ls st : upds_rep u ls -> st <> [] ->
  exists u', ub_conventional b st u = ({| stash := []; total := total b + length st |}, u', true) /\ upds_rep u' (ls ++ [st]).
Proof.
  intros HR Hne. pose proof HR as [R1 R2 R3 R4 R5]. unfold ub_conventional. eexists; split; [reflexivity|].
  eapply upds_rep_push; eauto; cbn [u_offs u_times u_diffs].
  - exists [length (u_times u ++ map fst st)], (map fst st), (map snd st). auto.
  - rewrite !app_length, !map_length. lia.
  - rewrite app_length; simpl. lia.
  - rewrite nth_error_app2 by lia. replace (S (length ls) - length (u_offs u)) with 0 by lia. reflexivity.
  - unfold upds_list, upds_bounds; simpl. rewrite (get_app_some _ _ _ _ R3).
    rewrite get_app_r by lia. replace (length ls + 1 - length (u_offs u)) with 0 by lia. unfold get at 1; simpl.
    rewrite app_length, map_length.
    destruct (Nat.eqb_spec (length (u_times u)) (length (u_times u) + length st)) as [E|E].
    + destruct st; [contradiction Hne; auto|simpl in E; lia].
    + replace (length (u_times u) + length st - length (u_times u)) with (length st) by lia.
      apply upds_range_tail with (pd := u_diffs u); auto.
Qed.

Lemma last_opt_some {A} (l : list A) x : last_opt l = Some x -> exists p, l = p ++ [x].
Proof.
  unfold last_opt. destruct (length l) as [|n] eqn:E; [discriminate|]. intros H. exists (firstn n l).
  pose proof (firstn_S_get l n x H) as H1. rewrite <- E, firstn_all in H1. exact H1.
Qed.
Lemma last_opt_app {A} (l : list A) x : last_opt (l ++ [x]) = Some x.
Proof.
  unfold last_opt. rewrite app_length; simpl. replace (length l + 1) with (S (length l)) by lia.
  rewrite nth_error_app2, Nat.sub_diag by lia. reflexivity.
Qed.

Theorem ub_seal_ok b u ls : upds_rep u ls ->
  exists u', ub_seal b u = ({| stash := []; total := total b + length (consolidate (stash b)) |}, u', negb (is_nil (consolidate (stash b)))) /\
    upds_rep u' (ls ++ if is_nil (consolidate (stash b)) then [] else [consolidate (stash b)]).
Proof.
  intros HR. unfold ub_seal. destruct (consolidate (stash b)) as [|[t r] [|x st]] eqn:E; simpl.
  - exists u. rewrite app_nil_r, Nat.add_0_r. split; auto.
  - destruct (opt_eqb (last_opt (u_times u)) t && opt_eqb (last_opt (u_diffs u)) r) eqn:Eq.
    + apply andb_true_iff in Eq as [E1 E2]. eexists; split; [reflexivity|].
      destruct (last_opt (u_times u)) as [t'|] eqn:Lt; [|discriminate]. destruct (last_opt (u_diffs u)) as [r'|] eqn:Lr; [|discriminate].
      simpl in E1, E2. apply eqb_eq in E1 as ->. apply eqb_eq in E2 as ->.
      apply last_opt_some in Lt as (pt & Et). apply last_opt_some in Lr as (pd & Ed).
      pose proof HR as [R1 R2 R3 R4 R5].
      eapply upds_rep_push; eauto; cbn [u_offs u_times u_diffs]; try discriminate.
      * exists [length (u_times u)], [], []. rewrite !app_nil_r; auto.
      * rewrite app_length; simpl. lia.
      * rewrite nth_error_app2 by lia. replace (S (length ls) - length (u_offs u)) with 0 by lia. reflexivity.
      * unfold upds_list, upds_bounds; simpl. rewrite (get_app_some _ _ _ _ R3).
        rewrite get_app_r by lia. replace (length ls + 1 - length (u_offs u)) with 0 by lia. unfold get at 1; simpl.
        rewrite Nat.eqb_refl. assert (Hl : length (u_times u) = S (length pt)) by (rewrite Et, app_length; simpl; lia).
        rewrite Hl. change (0 <? S (length pt)) with true. cbn iota.
        replace (S (length pt) - 1) with (length pt) by lia. replace (S (length pt) - length pt) with 1 by lia.
        apply (upds_range_tail _ [(t, r)] pt pd); simpl; auto.
        rewrite Et, Ed, !app_length in R1. simpl in R1. lia.
    + apply ub_conventional_ok; auto. discriminate.
  - apply (ub_conventional_ok b u ls ((t, r) :: x :: st)); auto. discriminate.
Qed.

Definition stash_into since b l : UpdsBuilder T R := {| stash := stash b ++ adv_upds since l; total := total b |}.

Lemma fold_push_adv since l b :
  fold_left (fun b x => ub_push b (advance_by (fst x) since) (snd x)) l b = stash_into since b l.
Proof.
  revert b; induction l as [|x l IH]; intros b; simpl.
  - destruct b; unfold stash_into; simpl; rewrite app_nil_r; auto.
  - rewrite IH. unfold stash_into, ub_push; simpl. rewrite <- app_assoc. reflexivity.
Qed.
End Upds.

(** ** Key-val batches *)
Section OrdVal.
Context {K V T R : Type} {OK : Ord K} {OV : Ord V} {TT : Time T} {DR : Diff R} {OR : Ord R}.
Local Notation storage := (OrdValStorage K V T R).
Local Notation vlist := (list (V * list (T * R))).
Implicit Types (s : storage) (vs : vlist).

Definition allv (tr : trie K V T R) : vlist := flat_map snd tr.
Definition off (tr : trie K V T R) (i : nat) : nat := length (allv (firstn i tr)).
Definition cnt vs : nat := length (flat_map snd vs).

Lemma cnt_app vs1 vs2 : cnt (vs1 ++ vs2) = cnt vs1 + cnt vs2.
Proof. unfold cnt. rewrite flat_map_app, app_length. reflexivity. Qed.
Lemma allv_app t1 t2 : allv (t1 ++ t2) = allv t1 ++ allv t2.
Proof. unfold allv. apply flat_map_app. Qed.
Lemma cnt_flat (tr : trie K V T R) : cnt (allv tr) = length (flat tr).
Proof.
  unfold cnt, allv, flat. induction tr as [|[k vs] tr IH]; simpl; auto.
  rewrite flat_map_app, !app_length, IH. f_equal. clear. induction vs as [|[v l] vs IH]; simpl; auto.
  rewrite !app_length, map_length, IH. reflexivity.
Qed.

(** What a storage must satisfy to be read. *)
Record src_rep s (tr : trie K V T R) : Prop := {
  sr_keys : ov_keys s = map fst tr;
  sr_offs : forall i, i <= length tr -> nth_error (v_offs s) i = Some (off tr i);
  sr_vals : v_vals s = map fst (allv tr);
  sr_upds : upds_rep (ov_upds s) (map snd (allv tr)) }.

(** What a storage under construction satisfies: complete keys, and values of an incomplete one. *)
Record out_rep s (tr : trie K V T R) (open : vlist) : Prop := {
  or_keys : ov_keys s = map fst tr;
  or_offs : forall i, i <= length tr -> nth_error (v_offs s) i = Some (off tr i);
  or_offs_len : length (v_offs s) = S (length tr);
  or_vals : v_vals s = map fst (allv tr ++ open);
  or_upds : upds_rep (ov_upds s) (map snd (allv tr ++ open)) }.

Lemma out_src s tr : out_rep s tr [] -> src_rep s tr.
Proof. intros [H1 H2 H3 H4 H5]. rewrite app_nil_r in *. constructor; auto. Qed.

Lemma out_new : out_rep ov_storage_new [] [].
Proof.
  constructor; simpl; auto.
  - intros [|i] H; [reflexivity|lia].
  - apply upds_new_rep.
Qed.

Lemma off_app_le t1 t2 i : i <= length t1 -> off (t1 ++ t2) i = off t1 i.
Proof. intros H. unfold off. rewrite firstn_app. replace (i - length t1) with 0 by lia. simpl. rewrite app_nil_r. auto. Qed.
Lemma off_all t : off t (length t) = length (allv t).
Proof. unfold off. rewrite firstn_all. reflexivity. Qed.

Lemma out_close s tr open k : out_rep s tr open ->
  out_rep (push_key s k (length (v_vals s))) (tr ++ [(k, open)]) [].
Proof.
  intros [H1 H2 H3 H4 H5]. constructor; simpl.
  - rewrite H1, map_app. reflexivity.
  - intros i Hi. rewrite app_length in Hi; simpl in Hi. destruct (Nat.eq_dec i (S (length tr))) as [->|Hne].
    + rewrite nth_error_app2 by lia. replace (S (length tr) - length (v_offs s)) with 0 by lia. simpl.
      replace (S (length tr)) with (length (tr ++ [(k, open)])) by (rewrite app_length; simpl; lia).
      rewrite off_all, H4, map_length, allv_app. simpl. rewrite app_nil_r. reflexivity.
    + rewrite nth_error_app1 by lia. rewrite H2 by lia. rewrite off_app_le by lia. reflexivity.
  - rewrite !app_length; simpl. lia.
  - rewrite allv_app; simpl. rewrite !app_nil_r. exact H4.
  - rewrite allv_app; simpl. rewrite !app_nil_r. exact H5.
Qed.

(** Values at an absolute range of a storage. *)
Definition vals_at s lo vs : Prop := forall j v l, nth_error vs j = Some (v, l) ->
  get (v_vals s) (lo + j) = Some v /\ upds_list (ov_upds s) (lo + j) = Some l.

Lemma vals_at_cons s lo v l vs : vals_at s lo ((v, l) :: vs) ->
  get (v_vals s) lo = Some v /\ upds_list (ov_upds s) lo = Some l /\ vals_at s (S lo) vs.
Proof.
  intros H. destruct (H 0 v l eq_refl) as [H1 H2]. rewrite Nat.add_0_r in *. repeat split; auto;
  destruct (H (S j) v0 l0 H0) as [H3 H4]; rewrite <- plus_n_Sm in H3, H4; auto.
Qed.

Lemma off_S tr i k vs : nth_error tr i = Some (k, vs) -> off tr (S i) = off tr i + length vs.
Proof.
  intros H. unfold off. rewrite (firstn_S_get tr i _ H), allv_app, app_length. simpl. rewrite app_nil_r. reflexivity.
Qed.

Lemma allv_at (tr : trie K V T R) i k vs j x : nth_error tr i = Some (k, vs) -> nth_error vs j = Some x ->
  nth_error (allv tr) (off tr i + j) = Some x.
Proof.
  intros Hi Hj. pose proof (nth_error_split _ _ Hi) as (l1 & l2 & -> & <-).
  rewrite off_app_le by auto. rewrite off_all. rewrite allv_app. rewrite nth_error_app2 by lia.
  replace (length (allv l1) + j - length (allv l1)) with j by lia. simpl.
  rewrite nth_error_app1; auto. apply nth_error_Some. congruence.
Qed.

Lemma src_key s tr i k vs : src_rep s tr -> nth_error tr i = Some (k, vs) ->
  get (ov_keys s) i = Some k /\ vals_bounds s i = Some (off tr i, off tr i + length vs) /\ vals_at s (off tr i) vs.
Proof.
  intros [H1 H2 H3 H4] Hi. assert (Hlt : i < length tr) by (apply nth_error_Some; congruence). repeat split.
  - rewrite H1. unfold get. rewrite nth_error_map, Hi. reflexivity.
  - unfold vals_bounds, get. rewrite H2 by lia. replace (i + 1) with (S i) by lia. rewrite H2 by lia.
    rewrite (off_S _ _ _ _ Hi). reflexivity.
  - rewrite H3. unfold get. rewrite nth_error_map, (allv_at tr i k vs j (v, l)); auto.
  - apply H4. rewrite nth_error_map, (allv_at tr i k vs j (v, l)); auto.
Qed.

(** *** Merging *)
Local Notation St := (storage * UpdsBuilder T R)%type.
Definition st_rep (st : St) (tr : trie K V T R) (open : vlist) : Prop :=
  out_rep (fst st) tr open /\ stash (snd st) = [] /\ total (snd st) = cnt (allv tr ++ open).

Lemma seal_val_ok s b since l tr open v :
  out_rep s tr open -> stash b = adv_upds since l -> total b = cnt (allv tr ++ open) ->
  st_rep (seal_val (s, b) v) tr (open ++ cval since (v, l)).
Proof.
  intros HO Hs Ht. unfold seal_val. simpl. pose proof HO as [H1 H2 H3 H4 H5].
  destruct (ub_seal_ok b _ _ H5) as (u' & E & HR). rewrite E. rewrite Hs in *. unfold cval, keepmap; simpl.
  split; [|split]; simpl; auto.
  - destruct (consolidate (adv_upds since l)) as [|x c] eqn:Ec; simpl in *.
    + rewrite app_nil_r in *. constructor; auto.
    + constructor; simpl; auto.
      * rewrite H4, app_assoc, (map_app fst (allv tr ++ open)). reflexivity.
      * rewrite app_assoc, (map_app snd (allv tr ++ open)). exact HR.
  - destruct (consolidate (adv_upds since l)) as [|x c] eqn:Ec.
    + rewrite app_nil_r. simpl. lia.
    + rewrite app_assoc, cnt_app, Ht. unfold cnt at 3. simpl. rewrite app_nil_r. reflexivity.
Qed.

Lemma stash_updates_ok since st s idx l : upds_list (ov_upds s) idx = Some l ->
  stash_updates_for_val since st s idx = Some (fst st, stash_into since (snd st) l).
Proof. intros H. unfold stash_updates_for_val. rewrite H, fold_push_adv. reflexivity. Qed.

Lemma copy_vals_ok since s vs : forall st lo tr open, vals_at s lo vs -> st_rep st tr open ->
  exists st', copy_vals (length vs) since st s lo = Some st' /\ st_rep st' tr (open ++ flat_map (cval since) vs).
Proof.
  induction vs as [|[v l] vs IH]; intros st lo tr open Hv HR.
  - simpl. exists st. rewrite app_nil_r. auto.
  - apply vals_at_cons in Hv as (E1 & E2 & Hv). cbn [length copy_vals]. unfold copy_val.
    rewrite (stash_updates_ok since st s lo l E2), E1. destruct HR as (HO & Hs & Ht).
    destruct st as [os b]; simpl in *.
    destruct (IH (seal_val (os, stash_into since b l) v) (S lo) tr (open ++ cval since (v, l)) Hv) as (st' & E & HR').
    { apply seal_val_ok; auto. simpl. rewrite Hs. reflexivity. }
    exists st'. split; auto. rewrite <- app_assoc in HR'. exact HR'.
Qed.

Lemma st_rep_len (st : St) tr open : st_rep st tr open -> length (v_vals (fst st)) = length (allv tr) + length open.
Proof. intros ([_ _ _ H _] & _). rewrite H, map_length, app_length. reflexivity. Qed.

Lemma st_rep_close (st : St) tr vs' k : st_rep st tr vs' -> vs' <> [] ->
  st_rep (push_key (fst st) k (length (v_vals (fst st))), snd st) (tr ++ [(k, vs')]) [].
Proof.
  intros (HO & Hs & Ht) Hne. split; [|split]; simpl; auto.
  - apply out_close; auto.
  - rewrite Ht, allv_app. simpl. rewrite !app_nil_r. reflexivity.
Qed.

(** Close the current key if it got any values. *)
Lemma close_key (st0 st : St) tr k vs since :
  st_rep st0 tr [] -> st_rep st tr (flat_map (cval since) vs) ->
  (length (v_vals (fst st0)) <? length (v_vals (fst st))) = negb (is_nil (flat_map (cval since) vs)) /\
  (flat_map (cval since) vs = [] -> st_rep st (tr ++ ckey since (k, vs)) []) /\
  (flat_map (cval since) vs <> [] ->
     st_rep (push_key (fst st) k (length (v_vals (fst st))), snd st) (tr ++ ckey since (k, vs)) []).
Proof.
  intros H0 H1. split; [|split].
  - rewrite (st_rep_len _ _ _ H0), (st_rep_len _ _ _ H1). destruct (flat_map (cval since) vs); simpl; [apply Nat.ltb_ge; lia | apply Nat.ltb_lt; lia].
  - intros E. unfold ckey, keepmap; simpl. rewrite E in *. rewrite app_nil_r. exact H1.
  - intros Hne. unfold ckey, keepmap; simpl. destruct (flat_map (cval since) vs) eqn:E; [contradiction Hne; auto|].
    apply st_rep_close; auto.
Qed.

Lemma copy_key_ok since s tr st out i k vs : src_rep s tr -> nth_error tr i = Some (k, vs) -> st_rep st out [] ->
  exists st', copy_key since st s i = Some st' /\ st_rep st' (out ++ ckey since (k, vs)) [].
Proof.
  intros HS Hi HR. destruct (src_key _ _ _ _ _ HS Hi) as (Hk & Hb & Hv). unfold copy_key. rewrite Hb.
  replace (off tr i + length vs - off tr i) with (length vs) by lia.
  destruct (copy_vals_ok since s vs st _ out [] Hv HR) as (st' & E & HR'). rewrite E. simpl in HR'.
  destruct (close_key st st' out k vs since HR HR') as (E1 & C1 & C2). rewrite E1.
  destruct (flat_map (cval since) vs) eqn:Ef; simpl.
  - exists st'; split; auto.
  - rewrite Hk. eexists; split; [reflexivity|]. apply C2. discriminate.
Qed.

Lemma merge_vals_loop_ok since s1 s2 : forall vs1 vs2 fuel st lo1 lo2 tr open,
  vals_at s1 lo1 vs1 -> vals_at s2 lo2 vs2 -> st_rep st tr open -> length vs1 + length vs2 <= fuel ->
  exists st', merge_vals_loop fuel since st s1 lo1 (lo1 + length vs1) s2 lo2 (lo2 + length vs2) = Some st' /\
    st_rep st' tr (open ++ flat_map (cval since) (mvals vs1 vs2)).
Proof.
  intros vs1 vs2 fuel. revert vs1 vs2. induction fuel as [|fuel IH]; intros vs1 vs2 st lo1 lo2 tr open Hv1 Hv2 HR Hf.
  - destruct vs1; [|simpl in Hf; lia]. destruct vs2; [|simpl in Hf; lia]. simpl.
    rewrite !Nat.add_0_r, !Nat.ltb_irrefl, !Nat.sub_diag. simpl. rewrite app_nil_r. eauto.
  - destruct vs1 as [|[v1 l1] vs1].
    { cbn [merge_vals_loop length]. rewrite Nat.add_0_r, Nat.ltb_irrefl, Nat.sub_diag. cbn [andb copy_vals].
      replace (lo2 + length vs2 - lo2) with (length vs2) by lia. unfold mvals; rewrite mergew_nil_l.
      apply copy_vals_ok; auto. }
    destruct vs2 as [|[v2 l2] vs2].
    { cbn [merge_vals_loop]. change (length (@nil (V * list (T * R)))) with 0.
      rewrite (Nat.add_0_r lo2), (Nat.ltb_irrefl lo2), Nat.sub_diag, andb_false_r.
      replace (lo1 + length ((v1, l1) :: vs1) - lo1) with (length ((v1, l1) :: vs1)) by lia.
      destruct (copy_vals_ok since s1 _ st lo1 tr open Hv1 HR) as (st' & E & HR'). rewrite E. cbn [copy_vals].
      exists st'. split; auto. }
    pose proof Hv1 as Hv1'. pose proof Hv2 as Hv2'.
    apply vals_at_cons in Hv1' as (E1 & F1 & Hv1'). apply vals_at_cons in Hv2' as (E2 & F2 & Hv2').
    cbn [merge_vals_loop]. simpl length. simpl in Hf.
    assert (L1 : (lo1 <? lo1 + S (length vs1)) = true) by (apply Nat.ltb_lt; lia).
    assert (L2 : (lo2 <? lo2 + S (length vs2)) = true) by (apply Nat.ltb_lt; lia).
    rewrite L1, L2. cbn [andb]. rewrite E1, E2. unfold mvals. rewrite mergew_cons.
    destruct HR as (HO & Hs & Ht). destruct st as [os b]; simpl in *.
    destruct (cmp_spec v1 v2) as [->|Hlt|Hlt].
    + rewrite (stash_updates_ok since _ s1 lo1 l1 F1), (stash_updates_ok since _ s2 lo2 l2 F2). simpl.
      rewrite !Nat.add_succ_r, <- !Nat.add_succ_l.
      destruct (IH vs1 vs2 (seal_val (os, stash_into since (stash_into since b l1) l2) v2) (S lo1) (S lo2) tr (open ++ cval since (v2, l1 ++ l2)))
        as (st' & E & HR'); auto; [|lia|].
      { apply seal_val_ok; auto. simpl. rewrite Hs. unfold adv_upds. rewrite map_app. reflexivity. }
      exists st'; split; auto. rewrite <- app_assoc in HR'. exact HR'.
    + rewrite (stash_updates_ok since _ s1 lo1 l1 F1). simpl. rewrite (Nat.add_succ_r lo1), <- Nat.add_succ_l.
      destruct (IH vs1 ((v2, l2) :: vs2) (seal_val (os, stash_into since b l1) v1) (S lo1) lo2 tr (open ++ cval since (v1, l1)))
        as (st' & E & HR'); auto; [|simpl; lia|].
      { apply seal_val_ok; auto. simpl. rewrite Hs. reflexivity. }
      exists st'; split; auto. rewrite <- app_assoc in HR'. exact HR'.
    + rewrite (stash_updates_ok since _ s2 lo2 l2 F2). simpl. rewrite (Nat.add_succ_r lo2), <- Nat.add_succ_l.
      destruct (IH ((v1, l1) :: vs1) vs2 (seal_val (os, stash_into since b l2) v2) lo1 (S lo2) tr (open ++ cval since (v2, l2)))
        as (st' & E & HR'); auto; [|simpl; lia|].
      { apply seal_val_ok; auto. simpl. rewrite Hs. reflexivity. }
      exists st'; split; auto. rewrite <- app_assoc in HR'. exact HR'.
Qed.

(** The merger: what is out, and what is to come. *)
Definition remaining since (tr1 tr2 : trie K V T R) (kc1 kc2 : nat) : trie K V T R :=
  compact_trie since (mtries (skipn kc1 tr1) (skipn kc2 tr2)).
Record m_rep (m : OrdValMerger K V T R) (tr1 tr2 out : trie K V T R) : Prop := {
  mr_st : st_rep (ovm_result m, ovm_staging m) out [];
  mr_goal : out ++ remaining (d_since (ovm_desc m)) tr1 tr2 (ovm_kc1 m) (ovm_kc2 m) =
            compact_trie (d_since (ovm_desc m)) (mtries tr1 tr2);
  mr_k1 : ovm_kc1 m <= length tr1;
  mr_k2 : ovm_kc2 m <= length tr2 }.

Lemma compact_trie_cons since x (tr : trie K V T R) : compact_trie since (x :: tr) = ckey since x ++ compact_trie since tr.
Proof. reflexivity. Qed.

Lemma ckey_cnt since (x : K * vlist) : cnt (allv (ckey since x)) <= cnt (snd x).
Proof.
  destruct x as [k vs]. unfold ckey, keepmap; simpl.
  assert (H : cnt (flat_map (cval since) vs) <= cnt vs).
  { induction vs as [|[v l] vs IH]; simpl; auto. rewrite cnt_app. change ((v, l) :: vs) with ([(v, l)] ++ vs). rewrite cnt_app.
    apply Nat.add_le_mono; auto. unfold cval, keepmap; simpl. destruct (consolidate (adv_upds since l)) eqn:E; [unfold cnt; simpl; lia|].
    rewrite <- E. unfold cnt; simpl. rewrite !app_nil_r. pose proof (consolidate_length (adv_upds since l)) as HL. unfold adv_upds in *. rewrite map_length in HL. exact HL. }
  destruct (flat_map (cval since) vs) eqn:E; simpl; [unfold cnt at 1; simpl; lia|]. rewrite app_nil_r. exact H.
Qed.
Lemma compact_cnt since (tr : trie K V T R) : cnt (allv (compact_trie since tr)) <= cnt (allv tr).
Proof.
  induction tr as [|x tr IH]; [auto|]. rewrite compact_trie_cons, allv_app. change (allv (x :: tr)) with (snd x ++ allv tr).
  rewrite !cnt_app. pose proof (ckey_cnt since x). lia.
Qed.

Lemma mtries_cnt (tr1 tr2 : trie K V T R) : cnt (allv (mtries tr1 tr2)) = cnt (allv tr1) + cnt (allv tr2).
Proof.
  rewrite !cnt_flat. rewrite (Permutation_length (mtries_perm tr1 tr2)), app_length. reflexivity.
Qed.

Local Notation merger := (OrdValMerger K V T R).
Definition left (tr1 tr2 : trie K V T R) (m : merger) : nat := (length tr1 - ovm_kc1 m) + (length tr2 - ovm_kc2 m).

Lemma m_rep_set (m : merger) tr1 tr2 out st x kc1 kc2 :
  m_rep m tr1 tr2 out -> st_rep st (out ++ ckey (d_since (ovm_desc m)) x) [] ->
  mtries (skipn (ovm_kc1 m) tr1) (skipn (ovm_kc2 m) tr2) = x :: mtries (skipn kc1 tr1) (skipn kc2 tr2) ->
  kc1 <= length tr1 -> kc2 <= length tr2 ->
  m_rep (ovm_set m kc1 kc2 st) tr1 tr2 (out ++ ckey (d_since (ovm_desc m)) x).
Proof.
  intros [H1 H2 H3 H4] Hst E L1 L2. destruct st as [os b]. constructor; simpl; auto.
  rewrite <- H2. unfold remaining. rewrite E, compact_trie_cons, app_assoc. reflexivity.
Qed.

Lemma merge_key_ok (m : merger) s1 s2 tr1 tr2 out : src_rep s1 tr1 -> src_rep s2 tr2 -> m_rep m tr1 tr2 out ->
  ovm_kc1 m < length tr1 -> ovm_kc2 m < length tr2 ->
  exists m' d, merge_key m s1 s2 = Some m' /\ m_rep m' tr1 tr2 (out ++ d) /\ ovm_desc m' = ovm_desc m /\ left tr1 tr2 m' < left tr1 tr2 m.
Proof.
  intros HS1 HS2 HM L1 L2. unfold merge_key.
  destruct (get_some tr1 _ L1) as ([k1 vs1] & E1). destruct (get_some tr2 _ L2) as ([k2 vs2] & E2).
  destruct (src_key _ _ _ _ _ HS1 E1) as (Ek1 & Eb1 & Hv1). destruct (src_key _ _ _ _ _ HS2 E2) as (Ek2 & Eb2 & Hv2).
  rewrite Ek1, Ek2.
  assert (EU : mtries (skipn (ovm_kc1 m) tr1) (skipn (ovm_kc2 m) tr2) =
     match cmp k1 k2 with
     | Lt => (k1, vs1) :: mtries (skipn (ovm_kc1 m + 1) tr1) (skipn (ovm_kc2 m) tr2)
     | Eq => (k1, mvals vs1 vs2) :: mtries (skipn (ovm_kc1 m + 1) tr1) (skipn (ovm_kc2 m + 1) tr2)
     | Gt => (k2, vs2) :: mtries (skipn (ovm_kc1 m) tr1) (skipn (ovm_kc2 m + 1) tr2)
     end).
  { rewrite (skipn_get tr1 _ _ E1), (skipn_get tr2 _ _ E2). rewrite !Nat.add_1_r. unfold mtries. apply mergew_cons. }
  pose proof (mr_st _ _ _ _ HM) as HR.
  destruct (cmp_spec k1 k2) as [<-|Hlt|Hlt].
  - rewrite Eb1, Eb2. unfold merge_vals.
    replace (off tr1 (ovm_kc1 m) + length vs1 - off tr1 (ovm_kc1 m)) with (length vs1) by lia.
    replace (off tr2 (ovm_kc2 m) + length vs2 - off tr2 (ovm_kc2 m)) with (length vs2) by lia.
    destruct (merge_vals_loop_ok (d_since (ovm_desc m)) s1 s2 vs1 vs2 (length vs1 + length vs2) _ _ _ out [] Hv1 Hv2 HR (Nat.le_refl _))
      as (st' & E & HR'). rewrite E. cbn [app] in HR'.
    destruct (close_key _ _ out k1 (mvals vs1 vs2) _ HR HR') as (Ec & C1 & C2). cbn [fst] in Ec |- *. rewrite Ec.
    destruct (flat_map (cval (d_since (ovm_desc m))) (mvals vs1 vs2)) eqn:Ef; cbn [is_nil negb].
    + do 2 eexists. split; [reflexivity|]. split; [eapply m_rep_set; eauto; lia|]. split; auto. unfold left; simpl; lia.
    + do 2 eexists. split; [reflexivity|]. split; [eapply m_rep_set; eauto; try lia; apply C2; discriminate|].
      split; auto. unfold left; simpl; lia.
  - clear Hlt.
    destruct (copy_key_ok (d_since (ovm_desc m)) s1 tr1 _ out _ _ _ HS1 E1 HR) as (st' & E & HR'). rewrite E.
    do 2 eexists. split; [reflexivity|]. split; [eapply m_rep_set; eauto; lia|]. split; auto. unfold left; simpl; lia.
  - clear Hlt.
    destruct (copy_key_ok (d_since (ovm_desc m)) s2 tr2 _ out _ _ _ HS2 E2 HR) as (st' & E & HR'). rewrite E.
    do 2 eexists. split; [reflexivity|]. split; [eapply m_rep_set; eauto; lia|]. split; auto. unfold left; simpl; lia.
Qed.

Definition tot (m : merger) : nat := total (ovm_staging m).
Lemma m_rep_tot (m : merger) tr1 tr2 out : m_rep m tr1 tr2 out -> tot m = length (flat out).
Proof. intros [(_ & _ & H) _ _ _]. unfold tot. simpl in H. rewrite H, app_nil_r, cnt_flat. reflexivity. Qed.

(** The state of a call to [work]. *)
Definition w_rep (m0 m : merger) tr1 tr2 (effort : Z) : Prop := exists out,
  m_rep m tr1 tr2 out /\ ovm_desc m = ovm_desc m0 /\ tot m0 <= tot m /\ effort = Z.of_nat (tot m - tot m0).

Lemma w_step (m0 m m' : merger) tr1 tr2 effort out d : w_rep m0 m tr1 tr2 effort -> m_rep m tr1 tr2 out ->
  m_rep m' tr1 tr2 (out ++ d) -> ovm_desc m' = ovm_desc m -> w_rep m0 m' tr1 tr2 (effort_of (tot m0) m').
Proof.
  intros (o & H1 & H2 & H3 & H4) Ho Hm Hd. exists (out ++ d). split; [|split; [|split]]; auto; try congruence.
  pose proof (m_rep_tot _ _ _ _ Ho) as E1. pose proof (m_rep_tot _ _ _ _ Hm) as E2. unfold flat in *. rewrite flat_map_app, app_length in E2. lia.
Qed.

Lemma work_merge_ok (m0 : merger) s1 s2 tr1 tr2 fuel : src_rep s1 tr1 -> src_rep s2 tr2 ->
  forall rounds m effort, w_rep m0 m tr1 tr2 effort -> left tr1 tr2 m <= rounds ->
  exists m' effort', work_merge rounds m s1 s2 (tot m0) effort fuel = Some (m', effort') /\ w_rep m0 m' tr1 tr2 effort' /\
    ((fuel <= effort')%Z \/ ovm_kc1 m' = length tr1 \/ ovm_kc2 m' = length tr2).
Proof.
  intros HS1 HS2. assert (EL1 : length (ov_keys s1) = length tr1) by (rewrite (sr_keys _ _ HS1), map_length; auto).
  assert (EL2 : length (ov_keys s2) = length tr2) by (rewrite (sr_keys _ _ HS2), map_length; auto).
  induction rounds as [|rounds IH]; intros m effort HW HL; cbn [work_merge]; rewrite EL1, EL2.
  - destruct HW as (out & HM & HW). pose proof HM as [_ _ K1 K2]. unfold left in HL.
    assert (E : (ovm_kc1 m <? length tr1) = false) by (apply Nat.ltb_ge; lia). rewrite E. simpl.
    exists m, effort; split; auto. split; [exists out; auto|]. right; left; lia.
  - destruct ((ovm_kc1 m <? length tr1) && (ovm_kc2 m <? length tr2) && (effort <? fuel)%Z) eqn:Ec.
    + apply andb_true_iff in Ec as [Ec _]. apply andb_true_iff in Ec as [Ec1 Ec2]. apply Nat.ltb_lt in Ec1, Ec2.
      pose proof HW as (out & HM & _).
      destruct (merge_key_ok m s1 s2 tr1 tr2 out HS1 HS2 HM Ec1 Ec2) as (m' & d & E & HM' & Hd & Hlt). rewrite E.
      apply IH; [|lia]. eapply w_step; eauto.
    + exists m, effort; split; auto. split; auto. pose proof HW as (out & [_ _ K1 K2] & _).
      apply andb_false_iff in Ec as [Ec|Ec]; [apply andb_false_iff in Ec as [Ec|Ec]; apply Nat.ltb_ge in Ec|]; [right; left; lia|right; right; lia|].
      left. apply Z.ltb_ge in Ec. lia.
Qed.

Lemma work_copy1_ok (m0 : merger) s1 s2 tr1 tr2 fuel : src_rep s1 tr1 -> src_rep s2 tr2 ->
  forall rounds m effort, w_rep m0 m tr1 tr2 effort -> left tr1 tr2 m <= rounds + (length tr2 - ovm_kc2 m) ->
  ((fuel <= effort)%Z \/ ovm_kc1 m = length tr1 \/ ovm_kc2 m = length tr2) ->
  exists m' effort', work_copy1 rounds m s1 (tot m0) effort fuel = Some (m', effort') /\ w_rep m0 m' tr1 tr2 effort' /\
    ((fuel <= effort')%Z \/ ovm_kc1 m' = length tr1).
Proof.
  intros HS1 HS2. assert (EL1 : length (ov_keys s1) = length tr1) by (rewrite (sr_keys _ _ HS1), map_length; auto).
  induction rounds as [|rounds IH]; intros m effort HW HL HC; cbn [work_copy1]; rewrite EL1.
  - pose proof HW as (out & [_ _ K1 K2] & _). unfold left in HL.
    assert (E : (ovm_kc1 m <? length tr1) = false) by (apply Nat.ltb_ge; lia). rewrite E. simpl.
    exists m, effort; split; auto. split; auto. right; lia.
  - destruct ((ovm_kc1 m <? length tr1) && (effort <? fuel)%Z) eqn:Ec.
    + apply andb_true_iff in Ec as [Ec1 Ec2]. apply Nat.ltb_lt in Ec1. apply Z.ltb_lt in Ec2.
      assert (EK : ovm_kc2 m = length tr2) by lia.
      pose proof HW as (out & HM & _). destruct (get_some tr1 _ Ec1) as ([k vs] & E1).
      destruct (copy_key_ok (d_since (ovm_desc m)) s1 tr1 _ out _ _ _ HS1 E1 (mr_st _ _ _ _ HM)) as (st' & E & HR'). rewrite E.
      assert (HM' : m_rep (ovm_set m (ovm_kc1 m + 1) (ovm_kc2 m) st') tr1 tr2 (out ++ ckey (d_since (ovm_desc m)) (k, vs))).
      { eapply m_rep_set; eauto; try lia. rewrite EK, skipn_all. unfold mtries. rewrite !mergew_nil_r.
        rewrite (skipn_get tr1 _ _ E1), Nat.add_1_r. reflexivity. }
      apply IH.
      * eapply w_step; eauto.
      * unfold left in *; simpl in *. lia.
      * right; right; auto.
    + exists m, effort; split; auto. split; auto. pose proof HW as (out & [_ _ K1 K2] & _).
      apply andb_false_iff in Ec as [Ec|Ec]; [apply Nat.ltb_ge in Ec; right; lia|]. apply Z.ltb_ge in Ec. left; lia.
Qed.

Lemma work_copy2_ok (m0 : merger) s1 s2 tr1 tr2 fuel : src_rep s1 tr1 -> src_rep s2 tr2 ->
  forall rounds m effort, w_rep m0 m tr1 tr2 effort -> left tr1 tr2 m <= rounds + (length tr1 - ovm_kc1 m) ->
  ((fuel <= effort)%Z \/ ovm_kc1 m = length tr1) ->
  exists m' effort', work_copy2 rounds m s2 (tot m0) effort fuel = Some (m', effort') /\ w_rep m0 m' tr1 tr2 effort' /\
    ((fuel <= effort')%Z \/ (ovm_kc1 m' = length tr1 /\ ovm_kc2 m' = length tr2)).
Proof.
  intros HS1 HS2. assert (EL2 : length (ov_keys s2) = length tr2) by (rewrite (sr_keys _ _ HS2), map_length; auto).
  induction rounds as [|rounds IH]; intros m effort HW HL HC; cbn [work_copy2]; rewrite EL2.
  - pose proof HW as (out & [_ _ K1 K2] & _). unfold left in HL.
    assert (E : (ovm_kc2 m <? length tr2) = false) by (apply Nat.ltb_ge; lia). rewrite E. simpl.
    exists m, effort; split; auto. split; auto. destruct HC as [HC|HC]; auto. right; lia.
  - destruct ((ovm_kc2 m <? length tr2) && (effort <? fuel)%Z) eqn:Ec.
    + apply andb_true_iff in Ec as [Ec1 Ec2]. apply Nat.ltb_lt in Ec1. apply Z.ltb_lt in Ec2.
      assert (EK : ovm_kc1 m = length tr1) by lia.
      pose proof HW as (out & HM & _). destruct (get_some tr2 _ Ec1) as ([k vs] & E1).
      destruct (copy_key_ok (d_since (ovm_desc m)) s2 tr2 _ out _ _ _ HS2 E1 (mr_st _ _ _ _ HM)) as (st' & E & HR'). rewrite E.
      assert (HM' : m_rep (ovm_set m (ovm_kc1 m) (ovm_kc2 m + 1) st') tr1 tr2 (out ++ ckey (d_since (ovm_desc m)) (k, vs))).
      { eapply m_rep_set; eauto; try lia. rewrite EK, skipn_all. unfold mtries. rewrite !mergew_nil_l.
        rewrite (skipn_get tr2 _ _ E1), Nat.add_1_r. reflexivity. }
      apply IH.
      * eapply w_step; eauto.
      * unfold left in *; simpl in *. lia.
      * right; auto.
    + exists m, effort; split; auto. split; auto. pose proof HW as (out & [_ _ K1 K2] & _).
      apply andb_false_iff in Ec as [Ec|Ec]; [apply Nat.ltb_ge in Ec|apply Z.ltb_ge in Ec; left; lia].
      destruct HC as [HC|HC]; auto. right; lia.
Qed.

(** *** A call to work *)
Theorem ovm_work_ok (m : merger) b1 b2 tr1 tr2 out fuel :
  src_rep (ov_storage b1) tr1 -> src_rep (ov_storage b2) tr2 -> m_rep m tr1 tr2 out ->
  exists m' fuel' out', ovm_work m b1 b2 fuel = Some (m', fuel') /\ m_rep m' tr1 tr2 out' /\ ovm_desc m' = ovm_desc m /\
    tot m <= tot m' /\ fuel' = (fuel - Z.of_nat (tot m' - tot m))%Z /\
    ((0 < fuel')%Z -> ovm_kc1 m' = length tr1 /\ ovm_kc2 m' = length tr2).
Proof.
  intros HS1 HS2 HM. unfold ovm_work. change (total (ovm_staging m)) with (tot m).
  assert (EL1 : length (ov_keys (ov_storage b1)) = length tr1) by (rewrite (sr_keys _ _ HS1), map_length; auto).
  assert (EL2 : length (ov_keys (ov_storage b2)) = length tr2) by (rewrite (sr_keys _ _ HS2), map_length; auto).
  assert (HW0 : w_rep m m tr1 tr2 0%Z) by (exists out; split; [exact HM|split; [auto|split; [auto|rewrite Nat.sub_diag; reflexivity]]]).
  destruct (work_merge_ok m _ _ tr1 tr2 fuel HS1 HS2 (length (ov_keys (ov_storage b1)) + length (ov_keys (ov_storage b2))) m 0%Z HW0) as (m1 & e1 & E1 & HW1 & HC1).
  { unfold left. lia. }
  rewrite E1.
  destruct (work_copy1_ok m _ _ tr1 tr2 fuel HS1 HS2 (length (ov_keys (ov_storage b1))) m1 e1 HW1) as (m2 & e2 & E2 & HW2 & HC2); auto.
  { unfold left. lia. }
  rewrite E2.
  destruct (work_copy2_ok m _ _ tr1 tr2 fuel HS1 HS2 (length (ov_keys (ov_storage b2))) m2 e2 HW2) as (m3 & e3 & E3 & HW3 & HC3); auto.
  { unfold left. lia. }
  rewrite E3. destruct HW3 as (out' & HM' & Hd & Ht & He).
  exists m3, (fuel - e3)%Z, out'. repeat split; auto; try lia; try apply HM'.
Qed.

Lemma m_rep_finished (m : merger) tr1 tr2 out : m_rep m tr1 tr2 out -> ovm_kc1 m = length tr1 -> ovm_kc2 m = length tr2 ->
  out = compact_trie (d_since (ovm_desc m)) (mtries tr1 tr2).
Proof.
  intros [_ H _ _] E1 E2. rewrite <- H. unfold remaining. rewrite E1, E2, !skipn_all. simpl. rewrite app_nil_r. reflexivity.
Qed.

Lemma m_rep_bound (m : merger) tr1 tr2 out : m_rep m tr1 tr2 out -> tot m <= length (flat tr1) + length (flat tr2).
Proof.
  intros HM. rewrite (m_rep_tot _ _ _ _ HM). pose proof (mr_goal _ _ _ _ HM) as H.
  assert (E : cnt (allv out) <= cnt (allv (compact_trie (d_since (ovm_desc m)) (mtries tr1 tr2)))).
  { rewrite <- H, allv_app, cnt_app. lia. }
  pose proof (compact_cnt (d_since (ovm_desc m)) (mtries tr1 tr2)) as H2. rewrite mtries_cnt in H2. rewrite !cnt_flat in *. lia.
Qed.

Lemma m_rep_new b1 b2 F (m : merger) tr1 tr2 : ovm_new b1 b2 F = Some m -> m_rep m tr1 tr2 [].
Proof.
  unfold ovm_new. destruct (ac_eqb _ _); [|discriminate]. destruct (desc_new _ _ _) eqn:E; [|discriminate].
  intros H; inversion H; subst. constructor; simpl; auto; try lia. split; [apply out_new|split; auto].
Qed.

(** *** Building *)
Record b_rep (b : OrdValBuilder K V T R) (tr : trie K V T R) (k : K) (vs : vlist) (v : V) (l : list (T * R)) : Prop := {
  br_keys : ov_keys (ovb_result b) = map fst tr ++ [k];
  br_offs : forall i, i <= length tr -> nth_error (v_offs (ovb_result b)) i = Some (off tr i);
  br_offs_len : length (v_offs (ovb_result b)) = S (length tr);
  br_vals : v_vals (ovb_result b) = map fst (allv tr ++ vs) ++ [v];
  br_upds : upds_rep (ov_upds (ovb_result b)) (map snd (allv tr ++ vs));
  br_stash : stash (ovb_staging b) = l;
  br_total : total (ovb_staging b) = cnt (allv tr ++ vs) }.

Local Notation builder := (OrdValBuilder K V T R).
Lemma ovb_seal_stash (b : builder) tr k vs v l : b_rep b tr k vs v l -> consolidated l -> l <> [] ->
  exists u, ub_seal (ovb_staging b) (ov_upds (ovb_result b)) = ({| stash := []; total := cnt (allv tr ++ vs ++ [(v, l)]) |}, u, true) /\
    upds_rep u (map snd (allv tr ++ vs ++ [(v, l)])).
Proof.
  intros HB HC Hne. destruct (ub_seal_ok (ovb_staging b) _ _ (br_upds _ _ _ _ _ _ HB)) as (u & E & HR).
  rewrite (br_stash _ _ _ _ _ _ HB), (consolidate_fixed l HC) in *. exists u. rewrite E. split.
  - destruct l; [contradiction Hne; auto|]. f_equal. f_equal. f_equal.
    rewrite (br_total _ _ _ _ _ _ HB), app_assoc, (cnt_app (allv tr ++ vs)). f_equal. unfold cnt; simpl. rewrite app_nil_r. reflexivity.
  - rewrite app_assoc, map_app. destruct l; [contradiction Hne; auto|]. exact HR.
Qed.

Lemma push_first k v t r : b_rep (ovb_push1 ovb_new (k, v, t, r)) [] k [] v [(t, r)].
Proof. constructor; simpl; auto; [intros [|i] H; [reflexivity|lia]|apply upds_new_rep]. Qed.

Lemma ov_keys_ne (b : builder) tr k vs v l : b_rep b tr k vs v l -> ov_keys (ovb_result b) <> [].
Proof. intros H. rewrite (br_keys _ _ _ _ _ _ H). destruct (map fst tr); discriminate. Qed.

Lemma push_cases (b : builder) tr k vs v l k' v' t r : b_rep b tr k vs v l ->
  ovb_push1 b (k', v', t, r) =
    let s := ovb_result b in
    if eqb k k' then
      if eqb v v' then {| ovb_result := s; ovb_staging := ub_push (ovb_staging b) t r |}
      else
        let '(st, u, _) := ub_seal (ovb_staging b) (ov_upds s) in
        {| ovb_result := {| ov_keys := ov_keys s; v_offs := v_offs s; v_vals := v_vals s ++ [v']; ov_upds := u |};
           ovb_staging := ub_push st t r |}
    else
      let '(st, u, _) := ub_seal (ovb_staging b) (ov_upds s) in
      {| ovb_result := {| ov_keys := ov_keys s ++ [k']; v_offs := v_offs s ++ [length (v_vals s)];
                          v_vals := v_vals s ++ [v']; ov_upds := u |};
         ovb_staging := ub_push st t r |}.
Proof.
  intros HB. pose proof (ov_keys_ne _ _ _ _ _ _ HB) as Hne. unfold ovb_push1.
  destruct (ov_keys (ovb_result b)) as [|k0 ks] eqn:Ek; [contradiction Hne; auto|].
  rewrite <- Ek. rewrite (br_keys _ _ _ _ _ _ HB), (br_vals _ _ _ _ _ _ HB), !last_opt_app. simpl. reflexivity.
Qed.

Lemma push_same (b : builder) tr k vs v l t r : b_rep b tr k vs v l -> b_rep (ovb_push1 b (k, v, t, r)) tr k vs v (l ++ [(t, r)]).
Proof.
  intros HB. rewrite (push_cases _ _ _ _ _ _ _ _ _ _ HB), !eqb_refl. destruct HB. constructor; simpl; auto. congruence.
Qed.

Lemma push_val (b : builder) tr k vs v l v' t r : b_rep b tr k vs v l -> consolidated l -> l <> [] -> v <> v' ->
  b_rep (ovb_push1 b (k, v', t, r)) tr k (vs ++ [(v, l)]) v' [(t, r)].
Proof.
  intros HB HC Hne Hv. rewrite (push_cases _ _ _ _ _ _ _ _ _ _ HB), eqb_refl. destruct (eqb_spec v v') as [|_]; [contradiction|].
  destruct (ovb_seal_stash _ _ _ _ _ _ HB HC Hne) as (u & E & HR). cbn zeta. rewrite E. destruct HB. constructor; simpl; auto.
  rewrite br_vals0, app_assoc, (map_app fst (allv tr ++ vs)). reflexivity.
Qed.

Lemma push_key_new (b : builder) tr k vs v l k' v' t r : b_rep b tr k vs v l -> consolidated l -> l <> [] -> k <> k' ->
  b_rep (ovb_push1 b (k', v', t, r)) (tr ++ [(k, vs ++ [(v, l)])]) k' [] v' [(t, r)].
Proof.
  intros HB HC Hne Hk. rewrite (push_cases _ _ _ _ _ _ _ _ _ _ HB). destruct (eqb_spec k k') as [|_]; [contradiction|].
  destruct (ovb_seal_stash _ _ _ _ _ _ HB HC Hne) as (u & E & HR). cbn zeta. rewrite E. destruct HB.
  assert (EA : allv (tr ++ [(k, vs ++ [(v, l)])]) = allv tr ++ vs ++ [(v, l)]) by (rewrite allv_app; simpl; rewrite app_nil_r; auto).
  constructor; simpl; auto; rewrite ?app_nil_r, ?EA; auto.
  - rewrite br_keys0, map_app. reflexivity.
  - intros i Hi. rewrite app_length in Hi; simpl in Hi. destruct (Nat.eq_dec i (S (length tr))) as [->|Hn].
    + rewrite nth_error_app2 by lia. replace (S (length tr) - length (v_offs (ovb_result b))) with 0 by lia. simpl.
      replace (S (length tr)) with (length (tr ++ [(k, vs ++ [(v, l)])])) by (rewrite app_length; simpl; lia).
      rewrite off_all, EA, br_vals0, !app_length, map_length, app_length. simpl. f_equal; lia.
    + rewrite nth_error_app1 by lia. rewrite br_offs0, off_app_le by lia. reflexivity.
  - rewrite !app_length; simpl. lia.
  - rewrite br_vals0, app_assoc, (map_app fst (allv tr ++ vs)). reflexivity.
Qed.

Lemma push_times (b : builder) tr k vs v l l' : b_rep b tr k vs v l ->
  b_rep (fold_left ovb_push1 (map (fun x => (k, v, fst x, snd x)) l') b) tr k vs v (l ++ l').
Proof.
  revert b l; induction l' as [|[t r] l' IH]; intros b l HB; simpl.
  - rewrite app_nil_r; auto.
  - change ((t, r) :: l') with ([(t, r)] ++ l'). rewrite app_assoc. apply IH, push_same; auto.
Qed.

Lemma push_vals vs' : forall (b : builder) tr k vs v l, b_rep b tr k vs v l -> consolidated l -> l <> [] ->
  strictly_sorted (v :: map fst vs') -> Forall (fun x => snd x <> [] /\ consolidated (snd x)) vs' ->
  exists vs2 v2 l2, vs2 ++ [(v2, l2)] = vs ++ [(v, l)] ++ vs' /\ l2 <> [] /\ consolidated l2 /\
    b_rep (fold_left ovb_push1 (flat_map (fun vu => map (fun x => (k, fst vu, fst x, snd x)) (snd vu)) vs') b) tr k vs2 v2 l2.
Proof.
  induction vs' as [|[v' l'] vs' IH]; intros b tr k vs v l HB HC Hne Hs HF; simpl.
  - exists vs, v, l. auto.
  - apply strictly_sorted_cons_inv in Hs as [Hs F]. inversion F as [|? ? Hlt F']; subst. inversion HF as [|? ? [Hn Hc] HF']; subst. simpl in Hn, Hc.
    rewrite fold_left_app. destruct l' as [|[t r] l']; [contradiction Hn; auto|]. simpl map. simpl fold_left at 2.
    assert (Hv : v <> v') by (intros ->; simpl in Hlt; exact (lt_irrefl _ Hlt)).
    pose proof (push_times _ _ _ _ _ _ l' (push_val _ _ _ _ _ _ _ t r HB HC Hne Hv)) as HB'. simpl in HB'.
    destruct (IH _ _ _ _ _ _ HB' Hc Hn Hs HF') as (vs2 & v2 & l2 & E & H1 & H2 & H3).
    exists vs2, v2, l2. rewrite E. rewrite <- app_assoc. simpl. auto.
Qed.

Lemma push_trie tr' : forall (b : builder) tr k vs v l, b_rep b tr k vs v l -> consolidated l -> l <> [] ->
  strictly_sorted (k :: map fst tr') -> Forall (fun x => wf_vals (snd x)) tr' ->
  exists tr2 k2 vs2 v2 l2, tr2 ++ [(k2, vs2 ++ [(v2, l2)])] = tr ++ [(k, vs ++ [(v, l)])] ++ tr' /\ l2 <> [] /\ consolidated l2 /\
    b_rep (fold_left ovb_push1 (flat tr') b) tr2 k2 vs2 v2 l2.
Proof.
  induction tr' as [|[k' vs'] tr' IH]; intros b tr k vs v l HB HC Hne Hs HF; simpl.
  - exists tr, k, vs, v, l. auto.
  - apply strictly_sorted_cons_inv in Hs as [Hs F]. inversion F as [|? ? Hlt F']; subst. inversion HF as [|? ? (Wn & Ws & Wl) HF']; subst.
    simpl in Wn, Ws, Wl, Hlt. rewrite fold_left_app.
    destruct vs' as [|[v' l'] vs']; [contradiction Wn; auto|]. simpl in Ws.
    inversion Wl as [|? ? [Hn Hc] Wl']; subst. simpl in Hn, Hc.
    simpl flat_map. rewrite fold_left_app. destruct l' as [|[t r] l']; [contradiction Hn; auto|]. simpl map. simpl fold_left at 3.
    assert (Hk : k <> k') by (intros ->; exact (lt_irrefl _ Hlt)).
    pose proof (push_times _ _ _ _ _ _ l' (push_key_new _ _ _ _ _ _ _ v' t r HB HC Hne Hk)) as HB'. simpl in HB'.
    destruct (push_vals vs' _ _ _ _ _ _ HB' Hc Hn Ws Wl') as (vs2 & v2 & l2 & E & H1 & H2 & H3).
    destruct (IH _ _ _ _ _ _ H3 H2 H1 Hs HF') as (tr3 & k3 & vs3 & v3 & l3 & E3 & H4 & H5 & H6).
    exists tr3, k3, vs3, v3, l3. split; auto. rewrite E3, E. simpl. rewrite <- app_assoc. reflexivity.
Qed.

(** A batch and what it holds. *)
Record ov_holds (b : OrdValBatch K V T R) (tr : trie K V T R) : Prop := {
  oh_src : src_rep (ov_storage b) tr;
  oh_wf : wf_trie tr;
  oh_len : ov_updates b = length (flat tr) }.

Lemma ovb_done_ok (b : builder) tr k vs v l d : b_rep b tr k vs v l -> consolidated l -> l <> [] ->
  wf_trie (tr ++ [(k, vs ++ [(v, l)])]) -> ov_holds (ovb_done b d) (tr ++ [(k, vs ++ [(v, l)])]).
Proof.
  intros HB HC Hne HW. unfold ovb_done. destruct (ovb_seal_stash _ _ _ _ _ _ HB HC Hne) as (u & E & HR). rewrite E.
  assert (EA : allv (tr ++ [(k, vs ++ [(v, l)])]) = allv tr ++ vs ++ [(v, l)]) by (rewrite allv_app; simpl; rewrite app_nil_r; auto).
  destruct HB. constructor; simpl; auto.
  - constructor; simpl; rewrite ?EA; auto.
    + rewrite br_keys0, map_app. reflexivity.
    + intros i Hi. rewrite app_length in Hi; simpl in Hi. destruct (Nat.eq_dec i (S (length tr))) as [->|Hn].
      * rewrite nth_error_app2 by lia. replace (S (length tr) - length (v_offs (ovb_result b))) with 0 by lia. simpl.
        replace (S (length tr)) with (length (tr ++ [(k, vs ++ [(v, l)])])) by (rewrite app_length; simpl; lia).
        rewrite off_all, EA, br_vals0, !app_length, map_length, app_length. simpl. f_equal; lia.
      * rewrite nth_error_app1 by lia. rewrite br_offs0, off_app_le by lia. reflexivity.
    + rewrite br_vals0, app_assoc, (map_app fst (allv tr ++ vs)). reflexivity.
  - rewrite <- EA, cnt_flat. reflexivity.
Qed.

Lemma fold_ovb_push chain (b : builder) : fold_left ovb_push chain b = fold_left ovb_push1 (concat chain) b.
Proof. revert b; induction chain as [|c chain IH]; intros b; simpl; auto. rewrite fold_left_app. apply IH. Qed.

Theorem ovb_seal_holds chain d (us : list (K * V * T * R)) : concat chain = us -> consolidated (A:=K*V*T) us ->
  ov_holds (ovb_seal chain d) (trie_of us).
Proof.
  intros E HC. unfold ovb_seal. rewrite fold_ovb_push, E. clear chain E.
  pose proof (trie_of_wf us HC) as HW. rewrite <- (flat_trie_of us) at 1. revert HW. generalize (trie_of us). clear us HC.
  intros tr HW. pose proof HW as [W1 W2]. destruct tr as [|[k vs] tr].
  - unfold ovb_done; simpl. constructor; simpl; auto. constructor; simpl; auto; [intros [|i] H; [reflexivity|lia]|apply upds_new_rep].
  - inversion W2 as [|? ? (Wn & Ws & Wl) W2']; subst. simpl in Wn, Ws, Wl.
    destruct vs as [|[v l] vs]; [contradiction Wn; auto|]. inversion Wl as [|? ? [Hn Hc] Wl']; subst. simpl in Hn, Hc.
    destruct l as [|[t r] l]; [contradiction Hn; auto|].
    simpl flat. cbn [fold_left]. rewrite !fold_left_app.
    pose proof (push_times _ _ _ _ _ _ l (push_first k v t r)) as HB. simpl in HB.
    destruct (push_vals vs _ _ _ _ _ _ HB Hc Hn Ws Wl') as (vs2 & v2 & l2 & E & H1 & H2 & H3).
    destruct (push_trie tr _ _ _ _ _ _ H3 H2 H1 W1 W2') as (tr3 & k3 & vs3 & v3 & l3 & E3 & H4 & H5 & H6).
    rewrite E in E3. simpl in E3. rewrite <- E3. apply ovb_done_ok; auto. rewrite E3. exact HW.
Qed.

(** Merging done. *)
Theorem ovm_done_holds (m : merger) b1 b2 tr1 tr2 out : ov_holds b1 tr1 -> ov_holds b2 tr2 -> m_rep m tr1 tr2 out ->
  ovm_kc1 m = length tr1 -> ovm_kc2 m = length tr2 -> ov_holds (ovm_done m) (compact_trie (d_since (ovm_desc m)) (mtries tr1 tr2)).
Proof.
  intros H1 H2 HM E1 E2. pose proof (m_rep_finished _ _ _ _ HM E1 E2) as E. rewrite <- E.
  constructor; simpl.
  - apply out_src. apply HM.
  - rewrite E. apply compact_trie_wf, mtries_sorted; apply wf_sorted; [apply H1|apply H2].
  - apply (m_rep_tot _ _ _ _ HM).
Qed.

Lemma ov_empty_holds lower upper b : ov_empty lower upper = Some b -> ov_holds b [].
Proof.
  unfold ov_empty. destruct (desc_new _ _ _); [|discriminate]. intros H; inversion H; subst. constructor; simpl; auto.
  - apply out_src, out_new.
  - split; constructor.
Qed.

(** *** The cursor *)
Lemma prefix_len_le {A} (f : A -> bool) l : prefix_len f l <= length l.
Proof. induction l as [|x l IH]; simpl; auto. destruct (f x); lia. Qed.

Lemma prefix_len_get {A} {OA : Ord A} {B} (l : list (A * B)) (a : A) i x : strictly_sorted (map fst l) -> nth_error l i = Some x ->
  ltb (fst x) a = (i <? prefix_len (fun e => ltb (fst e) a) l).
Proof.
  revert i; induction l as [|y l IH]; intros i Hs Hi; [destruct i; discriminate|].
  simpl in Hs. apply strictly_sorted_cons_inv in Hs as [Hs F]. simpl. destruct (ltb (fst y) a) eqn:E.
  - destruct i as [|i]; simpl in Hi.
    + inversion Hi; subst. rewrite E. reflexivity.
    + rewrite (IH i Hs Hi). reflexivity.
  - change (i <? 0) with false. destruct i as [|i]; simpl in Hi; [inversion Hi; subst; auto|].
    apply not_true_iff_false. intros Hx. apply not_true_iff_false in E. apply E. apply ltb_lt. apply ltb_lt in Hx.
    eapply lt_trans; [|exact Hx]. rewrite Forall_forall in F. apply F. apply in_map. eapply nth_error_In; eauto.
Qed.

Lemma strictly_sorted_skipn {A} {OA : Ord A} {B} (l : list (A * B)) n : strictly_sorted (map fst l) -> strictly_sorted (map fst (skipn n l)).
Proof.
  revert l; induction n as [|n IH]; intros [|x l] H; simpl; auto. apply IH. simpl in H. apply strictly_sorted_cons_inv in H. tauto.
Qed.

(** The gallop computes [prefix_len]. *)
Lemma advance_prefix {A} {OA : Ord A} {B} (arr : list A) (l : list (A * B)) (a : A) base n :
  strictly_sorted (map fst l) -> n <= length l -> base + length l <= length arr ->
  (forall i x, nth_error l i = Some x -> nth_error arr (base + i) = Some (fst x)) ->
  advance (fun x => ltb x a) arr (base + n) (base + length l) = Some (prefix_len (fun e => ltb (fst e) a) (skipn n l)).
Proof.
  intros Hs Hn Hlen Harr. pose proof (prefix_len_le (fun e : A * B => ltb (fst e) a) (skipn n l)) as Hp. rewrite skipn_length in Hp.
  apply advance_ok; auto; try lia. intros i x Hi Hx.
  assert (exists y, nth_error l (i - base) = Some y) as (y & Hy) by (apply get_some; lia).
  pose proof (Harr _ _ Hy) as Hb. replace (base + (i - base)) with i in Hb by lia. rewrite Hb in Hx. inversion Hx; subst.
  assert (Hy' : nth_error (skipn n l) (i - base - n) = Some y).
  { rewrite <- (firstn_skipn n l) in Hy. rewrite nth_error_app2 in Hy by (rewrite firstn_length; lia).
    rewrite firstn_length in Hy. replace (i - base - n) with (i - base - Nat.min n (length l)) by lia. exact Hy. }
  rewrite (prefix_len_get _ a _ _ (strictly_sorted_skipn l n Hs) Hy').
  destruct (Nat.ltb_spec (i - base - n) (prefix_len (fun e : A * B => ltb (fst e) a) (skipn n l)));
    destruct (Nat.ltb_spec i (base + n + prefix_len (fun e : A * B => ltb (fst e) a) (skipn n l))); auto; lia.
Qed.

Definition ov_rel (tr : trie K V T R) (c : OrdValCursor) (p : pos) : Prop :=
  ovc_key c = kp p /\ kp p <= length tr /\
  (kp p < length tr -> ovc_val c = off tr (kp p) + vp p /\ vp p <= length (cur_vals tr p)).

Lemma rewind_rel b tr c i v : src_rep (ov_storage b) tr -> i < length tr -> c = {| ovc_key := i; ovc_val := v |} ->
  exists c', ovc_rewind_vals b c = Some c' /\ ov_rel tr c' {| kp := i; vp := 0 |}.
Proof.
  intros HS Hi ->. unfold ovc_rewind_vals; simpl. destruct (get_some tr _ Hi) as ([k vs] & E).
  destruct (src_key _ _ _ _ _ HS E) as (_ & Eb & _). rewrite Eb. eexists; split; [reflexivity|].
  repeat split; simpl; try lia.
Qed.

Theorem ov_presents (b : OrdValBatch K V T R) tr : ov_holds b tr -> presents ov_ops b ovc_new tr.
Proof.
  intros [HS [W1 W2] _]. apply (presents_by_simulation _ _ _ _ (ov_rel tr)).
  - unfold ov_rel; simpl. repeat split; try lia.
  - intros c p (E1 & E2 & E3). unfold c_observe; simpl. unfold ovc_get_key, ovc_key_valid, ovc_get_key_abs, observation, at_key.
    rewrite E1, (sr_keys _ _ HS), map_length. unfold get. rewrite nth_error_map.
    destruct (nth_error tr (kp p)) as [[k vs]|] eqn:Ek; simpl.
    + assert (Hlt : kp p < length tr) by (apply nth_error_Some; congruence). destruct (E3 Hlt) as [E4 E5].
      destruct (src_key _ _ _ _ _ HS Ek) as (_ & Eb & Hv).
      unfold ovc_get_val, ovc_val_valid, ovc_get_val_abs, ovc_map_times. rewrite E1, Eb, E4. unfold at_val, at_times, cur_vals. rewrite Ek.
      apply Nat.ltb_lt in Hlt. rewrite Hlt, eqb_refl. simpl. unfold cur_vals in E5. rewrite Ek in E5.
      destruct (nth_error vs (vp p)) as [[v l]|] eqn:Ev; simpl.
      * assert (Hv' : vp p < length vs) by (apply nth_error_Some; congruence).
        assert (Hb : (off tr (kp p) + vp p <? off tr (kp p) + length vs) = true) by (apply Nat.ltb_lt; lia).
        destruct (Hv _ _ _ Ev) as [H1 H2]. rewrite Hb, H1, H2, eqb_refl. reflexivity.
      * apply nth_error_None in Ev. assert (Hb : (off tr (kp p) + vp p <? off tr (kp p) + length vs) = false) by (apply Nat.ltb_ge; lia).
        rewrite Hb. reflexivity.
    + apply nth_error_None in Ek. assert (Hb : (kp p <? length tr) = false) by (apply Nat.ltb_ge; lia). rewrite Hb. reflexivity.
  - intros c p op (E1 & E2 & E3) HL. destruct op; cbn [c_nav ov_ops c_step_key c_seek_key c_step_val c_seek_val c_rewind_keys c_rewind_vals].
    + (* step_key *)
      unfold ovc_step_key, ovc_key_valid; cbn [ovc_key ovc_val]. rewrite (sr_keys _ _ HS), map_length, E1.
      destruct (Nat.ltb_spec (kp p + 1) (length tr)) as [Hlt|Hge].
      * destruct (rewind_rel b tr _ (kp p + 1) (ovc_val c) HS Hlt eq_refl) as (c' & E & HR). exists c'. split; auto.
        unfold move. replace (Nat.min (S (kp p)) (length tr)) with (kp p + 1) by lia. exact HR.
      * eexists; split; [reflexivity|]. unfold move. replace (Nat.min (S (kp p)) (length tr)) with (length tr) by lia.
        unfold ov_rel; simpl; repeat split; lia.
    + (* seek_key *)
      unfold ovc_seek_key, ovc_key_valid; cbn [ovc_key ovc_val]. rewrite (sr_keys _ _ HS), map_length, E1.
      pose proof (advance_prefix (map fst tr) tr k 0 (kp p) W1 E2) as HA. simpl in HA. rewrite HA; [|rewrite map_length; lia|].
      2:{ intros i x Hi. rewrite nth_error_map, Hi. reflexivity. }
      pose proof (prefix_len_le (fun e : K * vlist => ltb (fst e) k) (skipn (kp p) tr)) as Hp. rewrite skipn_length in Hp.
      unfold move. destruct (Nat.ltb_spec (kp p + prefix_len (fun e : K * vlist => ltb (fst e) k) (skipn (kp p) tr)) (length tr)) as [Hlt|Hge].
      * destruct (rewind_rel b tr _ _ (ovc_val c) HS Hlt eq_refl) as (c' & E & HR). exists c'. split; auto.
      * eexists; split; [reflexivity|]. unfold ov_rel; simpl; repeat split; lia.
    + (* step_val *)
      unfold legal, at_key in HL. destruct (nth_error tr (kp p)) as [[k vs]|] eqn:Ek; [|contradiction HL; auto].
      assert (Hlt : kp p < length tr) by (apply nth_error_Some; congruence). destruct (E3 Hlt) as [E4 E5].
      destruct (src_key _ _ _ _ _ HS Ek) as (_ & Eb & Hv).
      unfold ovc_step_val, ovc_val_valid; cbn [ovc_key ovc_val]. rewrite E1, Eb, E4. unfold move, ov_rel. cbn [kp vp]. unfold cur_vals in *. cbn [kp]. rewrite Ek in *.
      destruct (Nat.ltb_spec (off tr (kp p) + vp p + 1) (off tr (kp p) + length vs)); eexists; (split; [reflexivity|]); cbn [ovc_key ovc_val]; repeat split; lia.
    + (* seek_val *)
      unfold legal, at_key in HL. destruct (nth_error tr (kp p)) as [[k vs]|] eqn:Ek; [|contradiction HL; auto].
      assert (Hlt : kp p < length tr) by (apply nth_error_Some; congruence). destruct (E3 Hlt) as [E4 E5].
      destruct (src_key _ _ _ _ _ HS Ek) as (_ & Eb & Hv).
      unfold ovc_seek_val; cbn [ovc_key ovc_val]. rewrite E1, Eb, E4. unfold move, ov_rel. cbn [kp vp]. unfold cur_vals in *. cbn [kp]. rewrite Ek in *.
      assert (Ws : strictly_sorted (map fst vs)).
      { rewrite Forall_forall in W2. apply (W2 (k, vs)). eapply nth_error_In; eauto. }
      rewrite (advance_prefix (v_vals (ov_storage b)) vs v (off tr (kp p)) (vp p)); auto.
      * eexists; split; [reflexivity|]. simpl. pose proof (prefix_len_le (fun e : V * list (T * R) => ltb (fst e) v) (skipn (vp p) vs)) as Hp.
        rewrite skipn_length in Hp. repeat split; lia.
      * rewrite (sr_vals _ _ HS), map_length. destruct vs as [|x vs]; [simpl|].
        -- rewrite Nat.add_0_r. unfold off, allv. rewrite <- (firstn_skipn (kp p) tr) at 2. rewrite flat_map_app, app_length. lia.
        -- destruct (nth_error (x :: vs) (length vs)) as [y|] eqn:Ey; [|apply nth_error_None in Ey; simpl in Ey; lia].
           pose proof (allv_at _ _ _ _ _ _ Ek Ey) as Ha. assert (off tr (kp p) + length vs < length (allv tr)) by (apply nth_error_Some; congruence).
           simpl. lia.
      * intros i [v' l] Hi. destruct (Hv _ _ _ Hi) as [H1 _]. exact H1.
    + (* rewind_keys *)
      unfold ovc_rewind_keys, ovc_key_valid; cbn [ovc_key ovc_val]. rewrite (sr_keys _ _ HS), map_length. unfold move, start.
      destruct (Nat.ltb_spec 0 (length tr)) as [Hlt|Hge].
      * apply (rewind_rel b tr _ 0 (ovc_val c) HS Hlt eq_refl).
      * eexists; split; [reflexivity|]. unfold ov_rel; simpl; repeat split; lia.
    + (* rewind_vals *)
      unfold legal, at_key in HL. destruct (nth_error tr (kp p)) as [[k vs]|] eqn:Ek; [|contradiction HL; auto].
      assert (Hlt : kp p < length tr) by (apply nth_error_Some; congruence).
      destruct c as [ck cv]; simpl in E1; subst ck. destruct (rewind_rel b tr _ (kp p) cv HS Hlt eq_refl) as (c' & E & HR).
      exists c'. split; auto.
Qed.
End OrdVal.
