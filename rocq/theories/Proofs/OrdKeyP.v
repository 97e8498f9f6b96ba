(** * Proofs about the key-only ord_neu batches *)
From Verif Require Import Base.Arrays Base.Collections Spec.Presents Model.LatticeM Model.ConsolidationM Model.ContainerM Model.OrdNeuM
  Proofs.LatticeP Proofs.ConsolidationP Proofs.ContainerP Proofs.CursorP Proofs.TrieP Proofs.OrdNeuP.

Section OrdKey.
Context {K T R : Type} {OK : Ord K} {TT : Time T} {DR : Diff R} {OR : Ord R}.
Local Notation storage := (OrdKeyStorage K T R).
Local Notation glist := (list (K * list (T * R))).
Implicit Types (s : storage) (g : glist).

(** Key groups as a trie over the unit value. *)
Definition kt g : trie K unit T R := map (fun x => (fst x, [(tt, snd x)])) g.

Lemma kt_keys g : map fst (kt g) = map fst g.
Proof. unfold kt. rewrite map_map. reflexivity. Qed.

Lemma kt_app g1 g2 : kt (g1 ++ g2) = kt g1 ++ kt g2.
Proof. apply map_app. Qed.

Lemma kt_flat_length g : length (flat (kt g)) = length (flat_map snd g).
Proof.
  unfold flat, kt. induction g as [|[k l] g IH]; simpl; auto. rewrite !app_length, IH, map_length. simpl. lia.
Qed.

Lemma wf_kt (tr : trie K unit T R) : wf_trie tr -> exists g, tr = kt g.
Proof.
  intros [_ H]. induction H as [|[k vs] tr (Hn & Hs & Hl) HF (g & ->)].
  - exists []. reflexivity.
  - simpl in *. destruct vs as [|[[] l] vs]; [contradiction Hn; auto|]. destruct vs as [|[[] l'] vs].
    + exists ((k, l) :: g). reflexivity.
    + simpl in Hs. apply strictly_sorted_cons_inv in Hs as [_ F]. inversion F; subst. exfalso.
      match goal with H : lt tt tt |- _ => exact (lt_irrefl _ H) end.
Qed.

Lemma mtries_kt g1 g2 : mtries (kt g1) (kt g2) = kt (mergew (@app (T * R)) g1 g2).
Proof.
  revert g1 g2. apply (mergew_ind (fun g1 g2 => mtries (kt g1) (kt g2) = kt (mergew (@app (T * R)) g1 g2))).
  - intros g. unfold mtries. simpl kt at 1. rewrite !mergew_nil_l. reflexivity.
  - intros g. unfold mtries. simpl kt at 2. rewrite !mergew_nil_r. reflexivity.
  - intros a1 b1 l1 a2 b2 l2 H IH. rewrite mergew_cons. unfold mtries in *. simpl kt in *. rewrite mergew_cons. unfold lt in H. rewrite H, IH. reflexivity.
  - intros a b1 l1 b2 l2 IH. rewrite mergew_cons. unfold mtries in *. simpl kt. rewrite mergew_cons, cmp_refl, IH. reflexivity.
  - intros a1 b1 l1 a2 b2 l2 H IH. rewrite mergew_cons. unfold mtries in *. simpl kt in *. rewrite mergew_cons. apply cmp_Gt_lt in H. rewrite H, IH. reflexivity.
Qed.

Local Notation cg := (cval (V:=K)).
Lemma compact_kt since g : compact_trie since (kt g) = kt (flat_map (cg since) g).
Proof.
  induction g as [|[k l] g IH]; [reflexivity|]. simpl kt at 1. rewrite compact_trie_cons, IH. simpl flat_map. rewrite kt_app. f_equal.
  unfold ckey, cval, keepmap; simpl. unfold keepmap; simpl. destruct (consolidate (adv_upds since l)); reflexivity.
Qed.

Record ksrc_rep s g : Prop := {
  ks_keys : ok_keys s = map fst g;
  ks_upds : upds_rep (ok_upds s) (map snd g) }.

Local Notation St := (storage * UpdsBuilder T R)%type.
Definition kst_rep (st : St) g : Prop := ksrc_rep (fst st) g /\ stash (snd st) = [] /\ total (snd st) = length (flat_map snd g).

Lemma ksrc_key s g i k l : ksrc_rep s g -> nth_error g i = Some (k, l) -> get (ok_keys s) i = Some k /\ upds_list (ok_upds s) i = Some l.
Proof.
  intros [H1 H2] Hi. split.
  - rewrite H1. unfold get. rewrite nth_error_map, Hi. reflexivity.
  - apply H2. rewrite nth_error_map, Hi. reflexivity.
Qed.

Lemma seal_key_ok s b since l g k : ksrc_rep s g -> stash b = adv_upds since l -> total b = length (flat_map snd g) ->
  kst_rep (seal_key (s, b) k) (g ++ cg since (k, l)).
Proof.
  intros [H1 H2] Hs Ht. unfold seal_key; simpl. destruct (ub_seal_ok b _ _ H2) as (u' & E & HR). rewrite E. rewrite Hs in *.
  unfold cval, keepmap; simpl. destruct (consolidate (adv_upds since l)) as [|x c]; simpl in *.
  - rewrite app_nil_r in *. split; [constructor; auto|]. simpl. split; auto. lia.
  - split; [constructor; simpl|split]; simpl; auto.
    + rewrite H1, map_app. reflexivity.
    + rewrite map_app. exact HR.
    + rewrite flat_map_app, app_length. simpl. rewrite app_nil_r. simpl. lia.
Qed.

Lemma kstash_ok since (st : St) s idx l : upds_list (ok_upds s) idx = Some l ->
  stash_updates_for_key since st s idx = Some (fst st, stash_into since (snd st) l).
Proof. intros H. unfold stash_updates_for_key. rewrite H, fold_push_adv. reflexivity. Qed.

Lemma kcopy_ok since s g st out i k l : ksrc_rep s g -> nth_error g i = Some (k, l) -> kst_rep st out ->
  exists st', okm_copy_key since st s i = Some st' /\ kst_rep st' (out ++ cg since (k, l)).
Proof.
  intros HS Hi (HO & Hs & Ht). destruct (ksrc_key _ _ _ _ _ HS Hi) as [E1 E2]. unfold okm_copy_key.
  rewrite (kstash_ok since st s i l E2), E1. eexists; split; [reflexivity|]. destruct st as [os b]. apply seal_key_ok; auto.
  simpl in *. rewrite Hs. reflexivity.
Qed.

Local Notation merger := (OrdKeyMerger K T R).
Local Notation mg := (mergew (A:=K) (@app (T * R))).
Record km_rep (m : merger) g1 g2 out : Prop := {
  km_st : kst_rep (okm_result m, okm_staging m) out;
  km_goal : out ++ flat_map (cg (d_since (okm_desc m))) (mg (skipn (okm_kc1 m) g1) (skipn (okm_kc2 m) g2)) =
            flat_map (cg (d_since (okm_desc m))) (mg g1 g2);
  km_k1 : okm_kc1 m <= length g1;
  km_k2 : okm_kc2 m <= length g2 }.
Definition kleft g1 g2 (m : merger) : nat := (length g1 - okm_kc1 m) + (length g2 - okm_kc2 m).

Lemma km_rep_set (m : merger) g1 g2 out st x kc1 kc2 :
  km_rep m g1 g2 out -> kst_rep st (out ++ cg (d_since (okm_desc m)) x) ->
  mg (skipn (okm_kc1 m) g1) (skipn (okm_kc2 m) g2) = x :: mg (skipn kc1 g1) (skipn kc2 g2) ->
  kc1 <= length g1 -> kc2 <= length g2 ->
  km_rep (okm_set m kc1 kc2 st) g1 g2 (out ++ cg (d_since (okm_desc m)) x).
Proof.
  intros [H1 H2 H3 H4] Hst E L1 L2. destruct st as [os b]. constructor; simpl; auto.
  rewrite <- H2, E. simpl. rewrite app_assoc. reflexivity.
Qed.

Lemma kmerge_key_ok (m : merger) s1 s2 g1 g2 out : ksrc_rep s1 g1 -> ksrc_rep s2 g2 -> km_rep m g1 g2 out ->
  okm_kc1 m < length g1 -> okm_kc2 m < length g2 ->
  exists m' d, okm_merge_key m s1 s2 = Some m' /\ km_rep m' g1 g2 (out ++ d) /\ okm_desc m' = okm_desc m /\ kleft g1 g2 m' < kleft g1 g2 m.
Proof.
  intros HS1 HS2 HM L1 L2. unfold okm_merge_key.
  destruct (get_some g1 _ L1) as ([k1 l1] & E1). destruct (get_some g2 _ L2) as ([k2 l2] & E2).
  destruct (ksrc_key _ _ _ _ _ HS1 E1) as (Ek1 & Eu1). destruct (ksrc_key _ _ _ _ _ HS2 E2) as (Ek2 & Eu2).
  rewrite Ek1, Ek2.
  assert (EU : mg (skipn (okm_kc1 m) g1) (skipn (okm_kc2 m) g2) =
     match cmp k1 k2 with
     | Lt => (k1, l1) :: mg (skipn (okm_kc1 m + 1) g1) (skipn (okm_kc2 m) g2)
     | Eq => (k1, l1 ++ l2) :: mg (skipn (okm_kc1 m + 1) g1) (skipn (okm_kc2 m + 1) g2)
     | Gt => (k2, l2) :: mg (skipn (okm_kc1 m) g1) (skipn (okm_kc2 m + 1) g2)
     end).
  { rewrite (skipn_get g1 _ _ E1), (skipn_get g2 _ _ E2). rewrite !Nat.add_1_r. apply mergew_cons. }
  pose proof (km_st _ _ _ _ HM) as HR.
  destruct (cmp_spec k1 k2) as [<-|Hlt|Hlt].
  - rewrite (kstash_ok _ _ s1 _ l1 Eu1), (kstash_ok _ _ s2 _ l2 Eu2). simpl.
    do 2 eexists. split; [reflexivity|]. split; [eapply km_rep_set; eauto; try lia|split; auto; unfold kleft; simpl; lia].
    destruct HR as (HO & Hs & Ht). apply seal_key_ok; auto. simpl in *. rewrite Hs. unfold adv_upds. rewrite map_app. reflexivity.
  - destruct (kcopy_ok (d_since (okm_desc m)) s1 g1 _ out _ _ _ HS1 E1 HR) as (st' & E & HR'). rewrite E.
    do 2 eexists. split; [reflexivity|]. split; [eapply km_rep_set; eauto; lia|]. split; auto. unfold kleft; simpl; lia.
  - destruct (kcopy_ok (d_since (okm_desc m)) s2 g2 _ out _ _ _ HS2 E2 HR) as (st' & E & HR'). rewrite E.
    do 2 eexists. split; [reflexivity|]. split; [eapply km_rep_set; eauto; lia|]. split; auto. unfold kleft; simpl; lia.
Qed.

Definition ktot (m : merger) : nat := total (okm_staging m).
Lemma km_rep_tot (m : merger) g1 g2 out : km_rep m g1 g2 out -> ktot m = length (flat_map snd out).
Proof. intros [(_ & _ & H) _ _ _]. exact H. Qed.

Definition kw_rep (m0 m : merger) g1 g2 (effort : Z) : Prop := exists out,
  km_rep m g1 g2 out /\ okm_desc m = okm_desc m0 /\ ktot m0 <= ktot m /\ effort = Z.of_nat (ktot m - ktot m0).

Lemma kw_step (m0 m m' : merger) g1 g2 effort out d : kw_rep m0 m g1 g2 effort -> km_rep m g1 g2 out ->
  km_rep m' g1 g2 (out ++ d) -> okm_desc m' = okm_desc m -> kw_rep m0 m' g1 g2 (okm_effort (ktot m0) m').
Proof.
  intros (o & H1 & H2 & H3 & H4) Ho Hm Hd. exists (out ++ d). split; [|split; [|split]]; auto; try congruence.
  pose proof (km_rep_tot _ _ _ _ Ho) as E1. pose proof (km_rep_tot _ _ _ _ Hm) as E2. rewrite flat_map_app, app_length in E2. lia.
Qed.

Lemma kwork_merge_ok (m0 : merger) s1 s2 g1 g2 fuel : ksrc_rep s1 g1 -> ksrc_rep s2 g2 ->
  forall rounds m effort, kw_rep m0 m g1 g2 effort -> kleft g1 g2 m <= rounds ->
  exists m' effort', okm_work_merge rounds m s1 s2 (ktot m0) effort fuel = Some (m', effort') /\ kw_rep m0 m' g1 g2 effort' /\
    ((fuel <= effort')%Z \/ okm_kc1 m' = length g1 \/ okm_kc2 m' = length g2).
Proof.
  intros HS1 HS2. assert (EL1 : length (ok_keys s1) = length g1) by (rewrite (ks_keys _ _ HS1), map_length; auto).
  assert (EL2 : length (ok_keys s2) = length g2) by (rewrite (ks_keys _ _ HS2), map_length; auto).
  induction rounds as [|rounds IH]; intros m effort HW HL; cbn [okm_work_merge]; rewrite EL1, EL2.
  - destruct HW as (out & HM & HW). pose proof HM as [_ _ K1 K2]. unfold kleft in HL.
    assert (E : (okm_kc1 m <? length g1) = false) by (apply Nat.ltb_ge; lia). rewrite E. simpl.
    exists m, effort; split; auto. split; [exists out; auto|]. right; left; lia.
  - destruct ((okm_kc1 m <? length g1) && (okm_kc2 m <? length g2) && (effort <? fuel)%Z) eqn:Ec.
    + apply andb_true_iff in Ec as [Ec _]. apply andb_true_iff in Ec as [Ec1 Ec2]. apply Nat.ltb_lt in Ec1, Ec2.
      pose proof HW as (out & HM & _).
      destruct (kmerge_key_ok m s1 s2 g1 g2 out HS1 HS2 HM Ec1 Ec2) as (m' & d & E & HM' & Hd & Hlt). rewrite E.
      apply IH; [|lia]. eapply kw_step; eauto.
    + exists m, effort; split; auto. split; auto. pose proof HW as (out & [_ _ K1 K2] & _).
      apply andb_false_iff in Ec as [Ec|Ec]; [apply andb_false_iff in Ec as [Ec|Ec]; apply Nat.ltb_ge in Ec|]; [right; left; lia|right; right; lia|].
      left. apply Z.ltb_ge in Ec. lia.
Qed.

Lemma kwork_copy1_ok (m0 : merger) s1 s2 g1 g2 fuel : ksrc_rep s1 g1 -> ksrc_rep s2 g2 ->
  forall rounds m effort, kw_rep m0 m g1 g2 effort -> kleft g1 g2 m <= rounds + (length g2 - okm_kc2 m) ->
  ((fuel <= effort)%Z \/ okm_kc1 m = length g1 \/ okm_kc2 m = length g2) ->
  exists m' effort', okm_work_copy1 rounds m s1 (ktot m0) effort fuel = Some (m', effort') /\ kw_rep m0 m' g1 g2 effort' /\
    ((fuel <= effort')%Z \/ okm_kc1 m' = length g1).
Proof.
  intros HS1 HS2. assert (EL1 : length (ok_keys s1) = length g1) by (rewrite (ks_keys _ _ HS1), map_length; auto).
  induction rounds as [|rounds IH]; intros m effort HW HL HC; cbn [okm_work_copy1]; rewrite EL1.
  - pose proof HW as (out & [_ _ K1 K2] & _). unfold kleft in HL.
    assert (E : (okm_kc1 m <? length g1) = false) by (apply Nat.ltb_ge; lia). rewrite E. simpl.
    exists m, effort; split; auto. split; auto. right; lia.
  - destruct ((okm_kc1 m <? length g1) && (effort <? fuel)%Z) eqn:Ec.
    + apply andb_true_iff in Ec as [Ec1 Ec2]. apply Nat.ltb_lt in Ec1. apply Z.ltb_lt in Ec2.
      assert (EK : okm_kc2 m = length g2) by lia.
      pose proof HW as (out & HM & _). destruct (get_some g1 _ Ec1) as ([k l] & E1).
      destruct (kcopy_ok (d_since (okm_desc m)) s1 g1 _ out _ _ _ HS1 E1 (km_st _ _ _ _ HM)) as (st' & E & HR'). rewrite E.
      assert (HM' : km_rep (okm_set m (okm_kc1 m + 1) (okm_kc2 m) st') g1 g2 (out ++ cg (d_since (okm_desc m)) (k, l))).
      { eapply km_rep_set; eauto; try lia. rewrite EK, skipn_all. rewrite !mergew_nil_r.
        rewrite (skipn_get g1 _ _ E1), Nat.add_1_r. reflexivity. }
      apply IH.
      * eapply kw_step; eauto.
      * unfold kleft in *; simpl in *. lia.
      * right; right; auto.
    + exists m, effort; split; auto. split; auto. pose proof HW as (out & [_ _ K1 K2] & _).
      apply andb_false_iff in Ec as [Ec|Ec]; [apply Nat.ltb_ge in Ec; right; lia|]. apply Z.ltb_ge in Ec. left; lia.
Qed.

Lemma kwork_copy2_ok (m0 : merger) s1 s2 g1 g2 fuel : ksrc_rep s1 g1 -> ksrc_rep s2 g2 ->
  forall rounds m effort, kw_rep m0 m g1 g2 effort -> kleft g1 g2 m <= rounds + (length g1 - okm_kc1 m) ->
  ((fuel <= effort)%Z \/ okm_kc1 m = length g1) ->
  exists m' effort', okm_work_copy2 rounds m s2 (ktot m0) effort fuel = Some (m', effort') /\ kw_rep m0 m' g1 g2 effort' /\
    ((fuel <= effort')%Z \/ (okm_kc1 m' = length g1 /\ okm_kc2 m' = length g2)).
Proof.
  intros HS1 HS2. assert (EL2 : length (ok_keys s2) = length g2) by (rewrite (ks_keys _ _ HS2), map_length; auto).
  induction rounds as [|rounds IH]; intros m effort HW HL HC; cbn [okm_work_copy2]; rewrite EL2.
  - pose proof HW as (out & [_ _ K1 K2] & _). unfold kleft in HL.
    assert (E : (okm_kc2 m <? length g2) = false) by (apply Nat.ltb_ge; lia). rewrite E. simpl.
    exists m, effort; split; auto. split; auto. destruct HC as [HC|HC]; auto. right; lia.
  - destruct ((okm_kc2 m <? length g2) && (effort <? fuel)%Z) eqn:Ec.
    + apply andb_true_iff in Ec as [Ec1 Ec2]. apply Nat.ltb_lt in Ec1. apply Z.ltb_lt in Ec2.
      assert (EK : okm_kc1 m = length g1) by lia.
      pose proof HW as (out & HM & _). destruct (get_some g2 _ Ec1) as ([k l] & E1).
      destruct (kcopy_ok (d_since (okm_desc m)) s2 g2 _ out _ _ _ HS2 E1 (km_st _ _ _ _ HM)) as (st' & E & HR'). rewrite E.
      assert (HM' : km_rep (okm_set m (okm_kc1 m) (okm_kc2 m + 1) st') g1 g2 (out ++ cg (d_since (okm_desc m)) (k, l))).
      { eapply km_rep_set; eauto; try lia. rewrite EK, skipn_all. rewrite !mergew_nil_l.
        rewrite (skipn_get g2 _ _ E1), Nat.add_1_r. reflexivity. }
      apply IH.
      * eapply kw_step; eauto.
      * unfold kleft in *; simpl in *. lia.
      * right; auto.
    + exists m, effort; split; auto. split; auto. pose proof HW as (out & [_ _ K1 K2] & _).
      apply andb_false_iff in Ec as [Ec|Ec]; [apply Nat.ltb_ge in Ec|apply Z.ltb_ge in Ec; left; lia].
      destruct HC as [HC|HC]; auto. right; lia.
Qed.

Theorem okm_work_ok (m : merger) b1 b2 g1 g2 out fuel :
  ksrc_rep (ok_storage b1) g1 -> ksrc_rep (ok_storage b2) g2 -> km_rep m g1 g2 out ->
  exists m' fuel' out', okm_work m b1 b2 fuel = Some (m', fuel') /\ km_rep m' g1 g2 out' /\ okm_desc m' = okm_desc m /\
    ktot m <= ktot m' /\ fuel' = (fuel - Z.of_nat (ktot m' - ktot m))%Z /\
    ((0 < fuel')%Z -> okm_kc1 m' = length g1 /\ okm_kc2 m' = length g2).
Proof.
  intros HS1 HS2 HM. unfold okm_work. change (total (okm_staging m)) with (ktot m).
  assert (EL1 : length (ok_keys (ok_storage b1)) = length g1) by (rewrite (ks_keys _ _ HS1), map_length; auto).
  assert (EL2 : length (ok_keys (ok_storage b2)) = length g2) by (rewrite (ks_keys _ _ HS2), map_length; auto).
  assert (HW0 : kw_rep m m g1 g2 0%Z) by (exists out; split; [exact HM|split; [auto|split; [auto|rewrite Nat.sub_diag; reflexivity]]]).
  destruct (kwork_merge_ok m _ _ g1 g2 fuel HS1 HS2 (length (ok_keys (ok_storage b1)) + length (ok_keys (ok_storage b2))) m 0%Z HW0) as (m1 & e1 & E1 & HW1 & HC1).
  { unfold kleft. lia. }
  rewrite E1.
  destruct (kwork_copy1_ok m _ _ g1 g2 fuel HS1 HS2 (length (ok_keys (ok_storage b1))) m1 e1 HW1) as (m2 & e2 & E2 & HW2 & HC2); auto.
  { unfold kleft. lia. }
  rewrite E2.
  destruct (kwork_copy2_ok m _ _ g1 g2 fuel HS1 HS2 (length (ok_keys (ok_storage b2))) m2 e2 HW2) as (m3 & e3 & E3 & HW3 & HC3); auto.
  { unfold kleft. lia. }
  rewrite E3. destruct HW3 as (out' & HM' & Hd & Ht & He).
  exists m3, (fuel - e3)%Z, out'. repeat split; auto; try lia; try apply HM'.
Qed.

Lemma km_rep_finished (m : merger) g1 g2 out : km_rep m g1 g2 out -> okm_kc1 m = length g1 -> okm_kc2 m = length g2 ->
  out = flat_map (cg (d_since (okm_desc m))) (mg g1 g2).
Proof. intros [_ H _ _] E1 E2. rewrite <- H, E1, E2, !skipn_all. simpl. rewrite app_nil_r. reflexivity. Qed.

Lemma cnt_mergew g1 g2 : length (flat_map snd (mg g1 g2)) = length (flat_map snd g1) + length (flat_map snd g2).
Proof.
  rewrite (Permutation_length (mergew_flat_perm (@app (T * R)) snd g1 g2 (fun _ _ _ => Permutation_refl _))), app_length. reflexivity.
Qed.

Lemma cg_cnt since g : length (flat_map snd (flat_map (cg since) g)) <= length (flat_map snd g).
Proof.
  induction g as [|[k l] g IH]; simpl; auto. rewrite flat_map_app, !app_length. apply Nat.add_le_mono; auto.
  pose proof (consolidate_length (adv_upds since l)) as HL. unfold adv_upds in HL at 2. rewrite map_length in HL.
  unfold cval, keepmap; simpl. destruct (consolidate (adv_upds since l)); simpl in *; rewrite ?app_nil_r; simpl; lia.
Qed.

Lemma km_rep_bound (m : merger) g1 g2 out : km_rep m g1 g2 out -> ktot m <= length (flat_map snd g1) + length (flat_map snd g2).
Proof.
  intros HM. rewrite (km_rep_tot _ _ _ _ HM). pose proof (km_goal _ _ _ _ HM) as H.
  pose proof (cg_cnt (d_since (okm_desc m)) (mg g1 g2)) as H2. rewrite cnt_mergew, <- H, flat_map_app, app_length in H2. lia.
Qed.

Lemma kout_new : ksrc_rep ok_storage_new [].
Proof. constructor; simpl; auto. apply upds_new_rep. Qed.

Lemma km_rep_new b1 b2 F (m : merger) g1 g2 : okm_new b1 b2 F = Some m -> km_rep m g1 g2 [].
Proof.
  unfold okm_new. destruct (ac_eqb _ _); [|discriminate]. destruct (desc_new _ _ _) eqn:E; [|discriminate].
  intros H; inversion H; subst. constructor; simpl; auto; try lia. split; [apply kout_new|split; auto].
Qed.

(** *** Building *)
Record kb_rep (b : OrdKeyBuilder K T R) g (k : K) (l : list (T * R)) : Prop := {
  kb_keys : ok_keys (okb_result b) = map fst g ++ [k];
  kb_upds : upds_rep (ok_upds (okb_result b)) (map snd g);
  kb_stash : stash (okb_staging b) = l;
  kb_total : total (okb_staging b) = length (flat_map snd g) }.
Local Notation builder := (OrdKeyBuilder K T R).

Lemma kb_seal_stash (b : builder) g k l : kb_rep b g k l -> consolidated l -> l <> [] ->
  exists u, ub_seal (okb_staging b) (ok_upds (okb_result b)) = ({| stash := []; total := length (flat_map snd (g ++ [(k, l)])) |}, u, true) /\
    upds_rep u (map snd (g ++ [(k, l)])).
Proof.
  intros HB HC Hne. destruct (ub_seal_ok (okb_staging b) _ _ (kb_upds _ _ _ _ HB)) as (u & E & HR).
  rewrite (kb_stash _ _ _ _ HB), (consolidate_fixed l HC) in *. exists u. rewrite E. split.
  - destruct l; [contradiction Hne; auto|]. f_equal. f_equal. f_equal.
    rewrite (kb_total _ _ _ _ HB), flat_map_app, app_length. f_equal. simpl. rewrite app_nil_r. reflexivity.
  - rewrite map_app. destruct l; [contradiction Hne; auto|]. exact HR.
Qed.

Lemma kpush_first k t r : kb_rep (okb_push1 okb_new (k, tt, t, r)) [] k [(t, r)].
Proof. constructor; simpl; auto. apply upds_new_rep. Qed.

Lemma kpush_cases (b : builder) g k l k' t r : kb_rep b g k l ->
  okb_push1 b (k', tt, t, r) =
    if eqb k k' then {| okb_result := okb_result b; okb_staging := ub_push (okb_staging b) t r |}
    else
      let '(st, u, _) := ub_seal (okb_staging b) (ok_upds (okb_result b)) in
      {| okb_result := {| ok_keys := ok_keys (okb_result b) ++ [k']; ok_upds := u |}; okb_staging := ub_push st t r |}.
Proof.
  intros HB. unfold okb_push1. pose proof (kb_keys _ _ _ _ HB) as Ek.
  destruct (ok_keys (okb_result b)) as [|k0 ks] eqn:E0; [destruct (map fst g); discriminate|].
  rewrite Ek, last_opt_app. reflexivity.
Qed.

Lemma kpush_same (b : builder) g k l t r : kb_rep b g k l -> kb_rep (okb_push1 b (k, tt, t, r)) g k (l ++ [(t, r)]).
Proof. intros HB. rewrite (kpush_cases _ _ _ _ _ _ _ HB), eqb_refl. destruct HB. constructor; simpl; auto. congruence. Qed.

Lemma kpush_new (b : builder) g k l k' t r : kb_rep b g k l -> consolidated l -> l <> [] -> k <> k' ->
  kb_rep (okb_push1 b (k', tt, t, r)) (g ++ [(k, l)]) k' [(t, r)].
Proof.
  intros HB HC Hne Hk. rewrite (kpush_cases _ _ _ _ _ _ _ HB). destruct (eqb_spec k k') as [|_]; [contradiction|].
  destruct (kb_seal_stash _ _ _ _ HB HC Hne) as (u & E & HR). rewrite E. destruct HB. constructor; simpl; auto.
  rewrite kb_keys0, map_app. reflexivity.
Qed.

Lemma kpush_times (b : builder) g k l l' : kb_rep b g k l ->
  kb_rep (fold_left okb_push1 (map (fun x => (k, tt, fst x, snd x)) l') b) g k (l ++ l').
Proof.
  revert b l; induction l' as [|[t r] l' IH]; intros b l HB; simpl.
  - rewrite app_nil_r; auto.
  - change ((t, r) :: l') with ([(t, r)] ++ l'). rewrite app_assoc. apply IH, kpush_same; auto.
Qed.

Lemma kpush_groups g' : forall (b : builder) g k l, kb_rep b g k l -> consolidated l -> l <> [] ->
  strictly_sorted (k :: map fst g') -> Forall (fun x => snd x <> [] /\ consolidated (snd x)) g' ->
  exists g2 k2 l2, g2 ++ [(k2, l2)] = g ++ [(k, l)] ++ g' /\ l2 <> [] /\ consolidated l2 /\
    kb_rep (fold_left okb_push1 (flat (kt g')) b) g2 k2 l2.
Proof.
  induction g' as [|[k' l'] g' IH]; intros b g k l HB HC Hne Hs HF; simpl.
  - exists g, k, l. auto.
  - apply strictly_sorted_cons_inv in Hs as [Hs F]. inversion F as [|? ? Hlt F']; subst. inversion HF as [|? ? [Hn Hc] HF']; subst. simpl in Hn, Hc, Hlt.
    rewrite app_nil_r, fold_left_app. destruct l' as [|[t r] l']; [contradiction Hn; auto|]. simpl map. simpl fold_left at 2.
    assert (Hk : k <> k') by (intros ->; exact (lt_irrefl _ Hlt)).
    pose proof (kpush_times _ _ _ _ l' (kpush_new _ _ _ _ _ t r HB HC Hne Hk)) as HB'. simpl in HB'.
    destruct (IH _ _ _ _ HB' Hc Hn Hs HF') as (g2 & k2 & l2 & E & H1 & H2 & H3).
    exists g2, k2, l2. split; auto. rewrite E, <- app_assoc. reflexivity.
Qed.

Record ok_holds (b : OrdKeyBatch K T R) g : Prop := {
  kh_src : ksrc_rep (ok_storage b) g;
  kh_wf : wf_trie (kt g);
  kh_len : ok_updates b = length (flat (kt g)) }.

Lemma fold_okb_push chain (b : builder) : fold_left okb_push chain b = fold_left okb_push1 (concat chain) b.
Proof. revert b; induction chain as [|c chain IH]; intros b; simpl; auto. rewrite fold_left_app. apply IH. Qed.

Theorem okb_seal_holds chain d (us : list (K * unit * T * R)) : concat chain = us -> consolidated (A:=K*unit*T) us ->
  exists g, trie_of us = kt g /\ ok_holds (okb_seal chain d) g.
Proof.
  intros E HC. unfold okb_seal. rewrite fold_okb_push, E. clear chain E.
  pose proof (trie_of_wf us HC) as HW. destruct (wf_kt _ HW) as (g & Eg). exists g. split; auto.
  rewrite <- (flat_trie_of us), Eg. rewrite Eg in HW. clear us HC Eg.
  pose proof HW as [W1 W2]. rewrite kt_keys in W1. unfold kt in W2. rewrite Forall_map in W2. simpl in W2. destruct g as [|[k l] g].
  - unfold okb_done; simpl. constructor; simpl; auto. apply kout_new.
  - assert (WF : Forall (fun x : K * list (T * R) => snd x <> [] /\ consolidated (snd x)) ((k, l) :: g)).
    { eapply Forall_impl; [|exact W2]. intros x (_ & _ & H). inversion H; subst. auto. }
    inversion WF as [|? ? [Hn Hc] WF']; subst. simpl in Hn, Hc.
    destruct l as [|[t r] l]; [contradiction Hn; auto|].
    simpl flat. cbn [fold_left]. rewrite app_nil_r, fold_left_app.
    pose proof (kpush_times _ _ _ _ l (kpush_first k t r)) as HB. cbn [app] in HB.
    destruct (kpush_groups g _ _ _ _ HB Hc Hn W1 WF') as (g2 & k2 & l2 & E & H1 & H2 & H3).
    unfold okb_done. destruct (kb_seal_stash _ _ _ _ H3 H2 H1) as (u & Eu & HR).
    change (flat_map (fun kv : K * list (unit * list (T * R)) => flat_map (fun vu : unit * list (T * R) =>
      map (fun tr0 : T * R => (fst kv, fst vu, fst tr0, snd tr0)) (snd vu)) (snd kv)) (kt g)) with (flat (kt g)).
    rewrite Eu. simpl in E. rewrite <- E in *. constructor; simpl; auto.
    + constructor; simpl; auto. etransitivity; [exact (kb_keys _ _ _ _ H3)|]. rewrite map_app. reflexivity.
    + rewrite kt_flat_length. reflexivity.
Qed.

Theorem okm_done_holds (m : merger) b1 b2 g1 g2 out : ok_holds b1 g1 -> ok_holds b2 g2 -> km_rep m g1 g2 out ->
  okm_kc1 m = length g1 -> okm_kc2 m = length g2 -> ok_holds (okm_done m) (flat_map (cg (d_since (okm_desc m))) (mg g1 g2)).
Proof.
  intros H1 H2 HM E1 E2. pose proof (km_rep_finished _ _ _ _ HM E1 E2) as E. rewrite <- E.
  constructor; simpl.
  - apply HM.
  - rewrite E, <- compact_kt, <- mtries_kt. apply compact_trie_wf, mtries_sorted; apply wf_sorted; [apply H1|apply H2].
  - rewrite kt_flat_length. apply (km_rep_tot _ _ _ _ HM).
Qed.

Lemma ok_empty_holds lower upper b : ok_empty lower upper = Some b -> ok_holds b [].
Proof.
  unfold ok_empty. destruct (desc_new _ _ _); [|discriminate]. intros H; inversion H; subst. constructor; simpl; auto.
  - apply kout_new.
  - split; constructor.
Qed.

(** *** The cursor *)
Definition ok_rel g (c : OrdKeyCursor) (p : pos) : Prop :=
  okc_key c = kp p /\ kp p <= length g /\
  (kp p < length g -> vp p = if okc_stepped c then 1 else 0).

Lemma kt_nth g i : nth_error (kt g) i = option_map (fun x => (fst x, [(tt, snd x)])) (nth_error g i).
Proof. apply nth_error_map. Qed.

Theorem ok_presents (b : OrdKeyBatch K T R) g : ok_holds b g -> presents ok_ops b okc_new (kt g).
Proof.
  intros [HS [W1 W2] _]. assert (EL : length (kt g) = length g) by apply map_length. rewrite kt_keys in W1.
  apply (presents_by_simulation _ _ _ _ (ok_rel g)).
  - unfold ok_rel; simpl. repeat split; try lia.
  - intros c p (E1 & E2 & E3). unfold c_observe; simpl. unfold okc_get_key, okc_key_valid, okc_get_key_abs, observation, at_key.
    rewrite E1, (ks_keys _ _ HS), map_length. unfold get. rewrite nth_error_map, kt_nth.
    destruct (nth_error g (kp p)) as [[k l]|] eqn:Ek; simpl.
    + assert (Hlt : kp p < length g) by (apply nth_error_Some; congruence). specialize (E3 Hlt).
      destruct (ksrc_key _ _ _ _ _ HS Ek) as (_ & Eu).
      unfold okc_get_val, okc_val_valid, okc_get_val_abs, okc_map_times. rewrite E1, Eu. unfold at_val, at_times, cur_vals. rewrite kt_nth, Ek.
      apply Nat.ltb_lt in Hlt. rewrite Hlt, eqb_refl. simpl. rewrite E3. destruct (okc_stepped c); simpl; reflexivity.
    + apply nth_error_None in Ek. assert (Hb : (kp p <? length g) = false) by (apply Nat.ltb_ge; lia). rewrite Hb. reflexivity.
  - intros c p op (E1 & E2 & E3) HL. destruct op; cbn [c_nav ok_ops c_step_key c_seek_key c_step_val c_seek_val c_rewind_keys c_rewind_vals].
    + unfold okc_step_key, okc_key_valid, okc_rewind_vals; cbn [okc_key okc_stepped]. rewrite (ks_keys _ _ HS), map_length, E1. unfold move. rewrite EL.
      destruct (Nat.ltb_spec (kp p + 1) (length g)) as [Hlt|Hge]; eexists; (split; [reflexivity|]); unfold ok_rel; cbn [okc_key okc_stepped kp vp]; repeat split; lia.
    + unfold okc_seek_key, okc_key_valid, okc_rewind_vals; cbn [okc_key okc_stepped]. rewrite (ks_keys _ _ HS), map_length, E1.
      pose proof (advance_prefix (map fst g) g k 0 (kp p) W1 E2) as HA. simpl in HA. rewrite HA; [|rewrite map_length; lia|].
      2:{ intros i x Hi. rewrite nth_error_map, Hi. reflexivity. }
      assert (EP : prefix_len (fun e : K * list (unit * list (T * R)) => ltb (fst e) k) (skipn (kp p) (kt g)) =
                   prefix_len (fun e : K * list (T * R) => ltb (fst e) k) (skipn (kp p) g)).
      { unfold kt. rewrite skipn_map. generalize (skipn (kp p) g). intros l. induction l as [|x l IH]; simpl; auto. rewrite IH. reflexivity. }
      pose proof (prefix_len_le (fun e : K * list (T * R) => ltb (fst e) k) (skipn (kp p) g)) as Hp. rewrite skipn_length in Hp.
      unfold move. rewrite EP. destruct (Nat.ltb_spec (kp p + prefix_len (fun e : K * list (T * R) => ltb (fst e) k) (skipn (kp p) g)) (length g)) as [Hlt|Hge];
        eexists; (split; [reflexivity|]); unfold ok_rel; cbn [okc_key okc_stepped kp vp]; repeat split; lia.
    + unfold legal, at_key in HL. rewrite kt_nth in HL. destruct (nth_error g (kp p)) as [[k l]|] eqn:Ek; [|contradiction HL; auto].
      unfold okc_step_val. eexists; split; [reflexivity|]. unfold ok_rel, move, cur_vals; cbn [okc_key okc_stepped kp vp]. rewrite kt_nth, Ek. simpl length.
      repeat split; auto. intros Hlt. lia.
    + unfold legal, at_key in HL. rewrite kt_nth in HL. destruct (nth_error g (kp p)) as [[k l]|] eqn:Ek; [|contradiction HL; auto].
      unfold okc_seek_val. eexists; split; [reflexivity|]. unfold ok_rel, move, cur_vals; cbn [okc_key okc_stepped kp vp]. rewrite kt_nth, Ek. simpl option_map.
      cbn [snd]. repeat split; auto. intros Hlt. rewrite (E3 Hlt). destruct (okc_stepped c); destruct v; simpl; auto.
    + unfold okc_rewind_keys, okc_key_valid, okc_rewind_vals; cbn [okc_key okc_stepped]. rewrite (ks_keys _ _ HS), map_length. unfold move, start.
      destruct (Nat.ltb_spec 0 (length g)) as [Hlt|Hge]; eexists; (split; [reflexivity|]); unfold ok_rel; cbn [okc_key okc_stepped kp vp]; repeat split; lia.
    + unfold okc_rewind_vals, ok_rel, move; cbn [kp vp]. eexists; split; [reflexivity|]. simpl. auto.
Qed.
End OrdKey.
