(** The work of reduce for one key: what is read by the cursors, and what compute does with it. *)
From Coq Require Import Sorting.Sorted.
From Verif Require Export Proofs.ComputeLoopP Proofs.ShowsP Proofs.ReadableP Proofs.ConsolidationP.
From Verif Require Import Base.Order.

(** ** The updates of a key *)
Section OfKey.
Context {K V T R : Type} {OK : Ord K} {OV : Ord V} {TT : Time T} {DR : Diff R}.
Definition of_key (k : K) (us : list (K * V * T * R)) : list (V * T * R) :=
  map (fun u => (snd (fst (fst u)), snd (fst u), snd u)) (filter (fun u => eqb (fst (fst (fst u))) k) us).
Lemma of_key_app k us vs : of_key k (us ++ vs) = of_key k us ++ of_key k vs.
Proof. unfold of_key. rewrite filter_app, map_app. auto. Qed.
Lemma in_of_key k us u : In u (of_key k us) <-> In (k, fst (fst u), snd (fst u), snd u) us.
Proof.
  unfold of_key. rewrite in_map_iff. split.
  - intros ([[[k' v] t] r] & <- & H). apply filter_In in H as [H E]. simpl in *. destruct (eqb_spec k' k); [subst; auto|discriminate].
  - intros H. exists (k, fst (fst u), snd (fst u), snd u). split; [destruct u as [[? ?] ?]; auto|]. apply filter_In. split; auto. simpl. apply eqb_refl.
Qed.
Lemma acc_of_key k us v t : acc (of_key k us) v t = acc us (k, v) t.
Proof.
  unfold acc, of_key. induction us as [|[[[k' v'] t'] r] us IH]; simpl; auto.
  assert (Ek : eqb (k', v') (k, v) = eqb k' k && eqb v' v).
  { destruct (eqb_spec (k', v') (k, v)) as [E|E], (eqb_spec k' k) as [E1|E1], (eqb_spec v' v) as [E2|E2]; auto; try (inversion E; congruence). subst; congruence. }
  rewrite Ek. destruct (eqb k' k); simpl; auto. destruct (eqb v' v); simpl; auto. destruct (tle t' t); simpl; rewrite IH; auto.
Qed.
Lemma weight_of_key k us (a : V * T) : weight (of_key k us) a = weight us (k, fst a, snd a).
Proof.
  destruct a as [v t]. unfold weight, of_key. induction us as [|[[[k' v'] t'] r] us IH]; simpl; auto.
  assert (Ek : eqb (k', v', t') (k, v, t) = eqb k' k && eqb (v', t') (v, t)).
  { destruct (eqb_spec (k', v', t') (k, v, t)) as [E|E], (eqb_spec k' k) as [E1|E1], (eqb_spec (v', t') (v, t)) as [E2|E2]; auto; try (inversion E; congruence).
    inversion E2; subst; congruence. }
  rewrite Ek. destruct (eqb k' k); simpl; auto. destruct (eqb (v', t') (v, t)); simpl; rewrite IH; auto.
Qed.
Lemma of_key_flat_cons k k' vs (tr : trie K V T R) :
  of_key k (flat ((k', vs) :: tr)) = (if eqb k' k then flatv None vs else []) ++ of_key k (flat tr).
Proof.
  change (flat ((k', vs) :: tr)) with (flat_map (fun vu => map (fun tr => (k', fst vu, fst tr, snd tr)) (snd vu)) vs ++ flat tr).
  rewrite of_key_app. f_equal. unfold flatv. induction vs as [|[v l] vs IH]; [destruct (eqb k' k); auto|]. cbn [flat_map fst snd]. rewrite of_key_app, IH.
  assert (E : of_key k (map (fun tr0 => (k', v, fst tr0, snd tr0)) l) = if eqb k' k then map (fun td => (v, fst td, snd td)) l else []).
  { unfold of_key. clear. induction l as [|[t r] l IH]; simpl; [destruct (eqb k' k); auto|]. destruct (eqb k' k) eqn:E; simpl; rewrite IH; auto. }
  rewrite E. destruct (eqb k' k); auto.
Qed.
Lemma of_key_entry i k vs : forall tr : trie K V T R, strictly_sorted (map fst tr) -> nth_error tr i = Some (k, vs) -> of_key k (flat tr) = flatv None vs.
Proof.
  induction i as [|i IH]; intros [|[k' vs'] tr] HS E; try discriminate.
  - inversion E; subst. rewrite of_key_flat_cons, eqb_refl.
    assert (Hn : of_key k (flat tr) = []); [|rewrite Hn, app_nil_r; auto].
    assert (HF : Forall (fun e => lt k (fst e)) tr).
    { apply Forall_forall. intros e He. apply In_nth_error in He as (n & En). eapply (sorted_nth (map fst ((k, vs) :: tr)) 0 (S n)); auto; [lia|]. simpl. rewrite nth_error_map, En. auto. }
    clear - TT HF. induction HF as [|[k' vs'] tr H _ IH]; auto. rewrite of_key_flat_cons, IH. simpl in H. destruct (eqb_spec k' k) as [->|]; auto. exfalso. apply (lt_irrefl _ H).
  - simpl in E. rewrite of_key_flat_cons. assert (HS' : strictly_sorted (map fst tr)) by (simpl in HS; inversion HS; auto; constructor).
    rewrite (IH tr HS' E). destruct (eqb_spec k' k) as [->|]; auto. exfalso.
    pose proof (sorted_nth (map fst ((k, vs') :: tr)) 0 (S i) k k HS ltac:(lia) eq_refl) as L. simpl in L. rewrite nth_error_map, E in L. apply (lt_irrefl k), L. auto.
Qed.
Lemma of_key_none k (tr : trie K V T R) : ~ In k (map fst tr) -> of_key k (flat tr) = [].
Proof.
  induction tr as [|[k' vs] tr IH]; intros H; auto. rewrite of_key_flat_cons, IH by (intros Hi; apply H; right; auto).
  destruct (eqb_spec k' k) as [->|]; auto. exfalso. apply H. left; auto.
Qed.
Lemma flatv_adv m (vs : list (V * list (T * R))) : flatv m vs = map (fun u => (fst (fst u), advance_opt m (snd (fst u)), snd u)) (flatv None vs).
Proof.
  unfold flatv. induction vs as [|[v l] vs IH]; auto. cbn [flat_map fst snd]. rewrite map_app, <- IH. f_equal. rewrite map_map. apply map_ext. intros [t r]. auto.
Qed.
Lemma in_times_under (us : list (K * V * T * R)) k v x : In x (times_under (trie_of us) k v) -> In (k, v, fst x, snd x) us.
Proof.
  intros H. rewrite <- (flat_trie_of us). unfold times_under, vals_under in H. apply in_flat_map in H as ([v' l] & H & Hx). apply in_flat_map in H as ([k' vs] & He & H).
  simpl in *. destruct (eqb_spec k' k) as [->|]; [|destruct H]. destruct (eqb_spec v' v) as [->|]; [|destruct Hx].
  unfold flat. apply in_flat_map. exists (k, vs). split; auto. apply in_flat_map. exists (v, l). split; auto. apply in_map_iff. exists x. auto.
Qed.
Lemma union_in {B} (contents : B -> list (K * V * T * R)) bs u : In u (flat (union_trie (tries contents bs))) -> In u (flat_map contents bs).
Proof.
  intros H. unfold flat in H. apply in_flat_map in H as ([k vs] & He & H). apply in_flat_map in H as ([v l] & Hv & H). apply in_map_iff in H as (x & <- & Hx).
  unfold union_trie in He. apply in_map_iff in He as (k' & E & _). inversion E; subst. simpl in Hv. apply in_map_iff in Hv as (v' & E' & _). inversion E'; subst.
  simpl in *. apply in_flat_map in Hx as (tr & Htr & Hx). unfold tries in Htr. apply in_map_iff in Htr as (b & <- & Hb). apply in_flat_map. exists b. split; auto.
  apply in_times_under; auto.
Qed.
Lemma union_none {B} (contents : B -> list (K * V * T * R)) bs k : ~ In k (map fst (union_trie (tries contents bs))) -> of_key k (flat_map contents bs) = [].
Proof.
  intros H. destruct (of_key k (flat_map contents bs)) as [|u l] eqn:E; auto. exfalso. apply H. apply (in_keys_U (tries contents bs)).
  assert (Hi : In u (of_key k (flat_map contents bs))) by (rewrite E; left; auto).
  apply in_of_key in Hi. apply in_flat_map in Hi as (b & Hb & Hi). exists (trie_of (contents b)). split; [apply in_map_iff; eauto|].
  simpl in Hi. rewrite <- (flat_trie_of (contents b)) in Hi. unfold flat in Hi. apply in_flat_map in Hi as ([k' vs] & He & Hi).
  apply in_flat_map in Hi as ([v ts] & Hv & Hi). apply in_map_iff in Hi as (x & Ex & _). inversion Ex; subst. apply in_map_iff. exists (k, vs). auto.
Qed.
End OfKey.

(** ** Loading a key *)
Section LoadKey.
Context {St C K V T R : Type} {OK : Ord K} {OV : Ord V} {TT : Time T} {DR : Diff R}.
Variable ops : CursorOps St C K V T R.
Notation times l := (map (fun u => snd (fst u)) l).

Lemma el_load_times st tr adv k vs : forall fuel i j c (el : EditList V T R) gs c' el', nth_error tr i = Some (k, vs) ->
  shows ops st tr c {| kp := i; vp := j |} -> j <= length vs -> el_rel el gs [] -> el_load_loop ops fuel st c adv el = Some (c', el') ->
  exists gs', el_rel el' gs' [] /\ forall t, In t (times (ungroup gs')) -> In t (times (ungroup gs)) \/ In t (times (flatv adv vs)).
Proof.
  induction fuel as [|fuel IH]; intros i j c el gs c' el' Hi HS Hj HR E.
  - cbn [el_load_loop] in E. destruct (c_get_val ops st c) as [[v|]|]; try discriminate. inversion E; subst. exists gs. auto.
  - assert (Hk : at_key tr {| kp := i; vp := j |} = Some k) by (unfold at_key; simpl; rewrite Hi; auto).
    destruct (shows_get_val _ _ _ _ _ _ HS Hk) as [Ev Et].
    assert (Hcv : cur_vals tr {| kp := i; vp := j |} = vs) by (unfold cur_vals; simpl; rewrite Hi; auto).
    cbn [el_load_loop] in E. rewrite Ev in E. destruct (nth_error vs j) as [[v ts]|] eqn:En.
    + assert (Hv : at_val tr {| kp := i; vp := j |} = Some v) by (unfold at_val; rewrite Hcv; simpl; rewrite En; auto).
      assert (Hts : at_times tr {| kp := i; vp := j |} = ts) by (unfold at_times; rewrite Hcv; simpl; rewrite En; auto).
      rewrite Hv in *. rewrite Et, Hts in E by discriminate.
      destruct (el_seal_rel _ _ _ v (el_push_all_rel adv ts _ _ _ HR)) as (el1 & E1 & R1). rewrite E1 in E.
      destruct (shows_nav _ _ _ _ _ StepVal HS) as (c1 & Ec & S1); [simpl; congruence|exact I|]. simpl in Ec. rewrite Ec in E.
      assert (Hlt : j < length vs) by (apply nth_error_Some; congruence).
      cbn [move kp vp] in S1. rewrite Hcv, Nat.min_l in S1 by lia.
      destruct (IH i (S j) c1 el1 _ c' el' Hi S1 ltac:(lia) R1 E) as (gs' & R' & W). exists gs'. split; auto.
      intros t Ht. apply W in Ht as [Ht|Ht]; auto. unfold sealed in Ht. cbn [app] in Ht.
      set (l := consolidate (map (fun td => (advance_opt adv (fst td), snd td)) ts)) in *.
      assert (Hin : In t (times (ungroup gs)) \/ In t (map fst l)).
      { destruct l as [|x l]; auto. rewrite ungroup_app, map_app, in_app_iff in Ht. destruct Ht as [Ht|Ht]; auto. right. unfold ungroup in Ht. cbn [flat_map fst snd] in Ht.
        rewrite app_nil_r, map_map in Ht. cbn [fst snd] in Ht. exact Ht. }
      destruct Hin as [Hin|Hin]; auto. right. unfold l in Hin. apply consolidate_incl in Hin. rewrite map_map in Hin. cbn [fst] in Hin.
      apply in_map_iff in Hin as (td & <- & Htd). apply in_map_iff. exists (v, advance_opt adv (fst td), snd td). split; auto.
      unfold flatv. apply in_flat_map. exists (v, ts). split; [eapply nth_error_In; eauto|]. apply in_map_iff. exists td. auto.
    + assert (Hn : at_val tr {| kp := i; vp := j |} = None) by (unfold at_val; rewrite Hcv; simpl; rewrite En; auto).
      rewrite Hn in E. inversion E; subst. exists gs. auto.
Qed.
End LoadKey.

Section ReadKey.
Context {B M C K V T R : Type} {OK : Ord K} {OV : Ord V} {TT : Time T} {DR : Diff R}.
Variable bops : BatchOps B M T. Variable contents : B -> list (K * V * T * R). Variable laws : BatchLaws (D:=K*V) bops contents.
Variable cops : CursorOps B C K V T R. Variable new : C.
Hypothesis HR : readable bops contents laws cops new.
Notation times l := (map (fun u => snd (fst u)) l).
Notation trie_for bs := (union_trie (tries contents bs)).
(** a cursor at some key, with those before it passed *)
Definition reads (bs : list B) (c : CursorList C) (j : nat) : Prop := exists jv, shows (cl_ops cops) bs (trie_for bs) c {| kp := j; vp := jv |}.
Definition past (bs : list B) (j : nat) (key : K) : Prop := forall n k, n < j -> nth_error (map fst (trie_for bs)) n = Some k -> lt k key.
Definition ahead (bs : list B) (j : nat) (key : K) : Prop := forall k, nth_error (map fst (trie_for bs)) j = Some k -> le key k.
Lemma past_mono bs j k k' : past bs j k -> le k k' -> past bs j k'.
Proof. intros H L n k0 Hn E. eapply lt_le_trans; eauto. Qed.

Lemma seek_spec (l : list (K * list (V * list (T * R)))) key j :
  let j1 := j + prefix_len (fun e => ltb (fst e) key) (skipn j l) in
  (forall n k, j <= n < j1 -> nth_error (map fst l) n = Some k -> lt k key) /\ (forall k, nth_error (map fst l) j1 = Some k -> le key k).
Proof.
  cbv zeta. split.
  - intros n k0 Hn E0. rewrite nth_error_map in E0. destruct (nth_error l n) as [e|] eqn:E1; [|discriminate]. inversion E0; subst k0.
    assert (E2 : nth_error (skipn j l) (n - j) = Some e) by (rewrite nth_error_skipn; replace (j + (n - j)) with n by lia; auto).
    assert (Hl2 : n - j < prefix_len (fun e => ltb (fst e) key) (skipn j l)) by lia.
    apply ltb_lt. clear - E2 Hl2. revert E2 Hl2. generalize (n - j) as m. generalize (skipn j l) as l'. induction l' as [|x l' IH]; intros m E2 Hl2; [destruct m; discriminate|].
    simpl in Hl2. destruct (ltb (fst x) key) eqn:E; [|lia]. destruct m; simpl in E2; [inversion E2; subst; auto|]. eapply IH; eauto. lia.
  - intros k E1. rewrite nth_error_map in E1. destruct (nth_error l (j + _)) as [e|] eqn:E0; [|discriminate]. inversion E1; subst k. apply ltb_ge.
    rewrite <- nth_error_skipn in E0. clear - E0. revert E0. generalize (skipn j l) as l'. induction l' as [|x l' IH]; simpl; [discriminate|].
    destruct (ltb (fst x) key) eqn:E; simpl; auto. intros E2. inversion E2; subst; auto.
Qed.
Lemma absent bs j key : past bs j key -> (forall k, nth_error (map fst (trie_for bs)) j = Some k -> lt key k) -> of_key key (flat_map contents bs) = [].
Proof.
  intros HP HA. apply union_none. intros Hin. apply In_nth_error in Hin as (n & En). pose proof (keys_U_sorted (tries contents bs)) as VS. unfold keys in VS.
  destruct (Nat.lt_trichotomy n j) as [Hl|[Hl|Hl]].
  - apply (lt_irrefl key). eapply HP; eauto.
  - subst n. apply (lt_irrefl key). auto.
  - destruct (nth_error (map fst (trie_for bs)) j) as [e|] eqn:E1.
    + apply (lt_irrefl key). eapply lt_trans; [apply HA; auto|]. eapply (sorted_nth _ j n); eauto.
    + apply nth_error_None in E1. assert (n < length (map fst (trie_for bs))) by (apply nth_error_Some; congruence). lia.
Qed.

Lemma populate_ok bs fuel c j key m : Forall (bl_ok _ _ laws) bs -> reads bs c j -> past bs j key -> length (flat_map contents bs) <= fuel ->
  exists c' j' el us, populate_key (cl_ops cops) fuel bs c key m = Some (c', el) /\ reads bs c' j' /\ past bs j' key /\ ahead bs j' key /\ (ahead bs j key -> j' = j) /\
    el_map el = Some us /\
    (forall v t, (forall x, m = Some x -> tle x t = true) -> acc us v t = acc (of_key key (flat_map contents bs)) v t) /\
    (forall t, In t (times us) -> exists t0, In t0 (times (of_key key (flat_map contents bs))) /\ t = advance_opt m t0).
Proof.
  intros HB (jv & HS) HP Hf. unfold populate_key. set (U := trie_for bs) in *.
  destruct (shows_nav _ _ _ _ _ (SeekKey key) HS) as (c1 & E1 & S1); [exact I|exact I|]. cbn [c_nav] in E1. rewrite E1. cbn [move kp] in S1.
  destruct (seek_spec U key j) as [K1 K2]. cbv zeta in K1, K2. set (j1 := j + prefix_len (fun e => ltb (fst e) key) (skipn j U)) in *.
  assert (HP1 : past bs j1 key). { intros n k Hn E. destruct (Nat.lt_ge_cases n j); [eapply HP; eauto|]. apply (K1 n k); [lia|exact E]. }
  assert (Hst : ahead bs j key -> j1 = j).
  { intros HA. unfold j1. destruct (prefix_len (fun e => ltb (fst e) key) (skipn j U)) as [|n] eqn:En; [lia|]. exfalso.
    destruct (skipn j U) as [|e l] eqn:Es; [discriminate|]. simpl in En. destruct (ltb (fst e) key) eqn:El; [|discriminate]. apply ltb_lt in El.
    assert (Ee : nth_error U j = Some e). { replace j with (j + 0) by lia. rewrite <- nth_error_skipn, Es. auto. }
    specialize (HA (fst e)). unfold U in Ee. rewrite nth_error_map, Ee in HA. apply (lt_irrefl key). eapply le_lt_trans; [apply HA; auto|exact El]. }
  rewrite (shows_get_key _ _ _ _ _ S1). unfold at_key. cbn [kp].
  assert (Emp : nth_error (map fst U) j1 <> Some key -> exists us, el_map (@el_new V T R) = Some us /\
     (forall v t, (forall x, m = Some x -> tle x t = true) -> acc us v t = acc (of_key key (flat_map contents bs)) v t) /\
     (forall t, In t (times us) -> exists t0, In t0 (times (of_key key (flat_map contents bs))) /\ t = advance_opt m t0)).
  { intros Hna. exists []. split; auto. rewrite (absent bs j1 key HP1); [split; [auto|intros t []]|].
    intros k Ek. fold U in Ek. specialize (K2 k Ek). apply le_lteq in K2 as [K2|K2]; auto. subst. congruence. }
  destruct (nth_error U j1) as [[k vs]|] eqn:Ei; cbn [option_map fst].
  - destruct (eqb_spec k key) as [->|Hk].
    + destruct (shows_nav _ _ _ _ _ RewindVals S1) as (c2 & E2 & S2); [unfold legal, at_key; simpl; rewrite Ei; discriminate|exact I|]. cbn [c_nav] in E2. rewrite E2. cbn [move kp] in S2.
      destruct (union_length contents bs) as [_ UL]. rewrite Forall_forall in UL. specialize (UL _ (nth_error_In _ _ Ei)). cbn [snd] in UL.
      destruct (el_load_ok (cl_ops cops) bs U m key vs fuel j1 c2 Ei S2 ltac:(lia)) as (c' & el & us & El & S' & Em & W).
      exists c', j1, el, us. split; [exact El|]. split; [exists (length vs); exact S'|]. do 3 (split; [auto|]). split; [auto|].
      assert (Ew : of_key key (flat U) = flatv None vs) by (apply (of_key_entry j1); [apply (keys_U_sorted (tries contents bs))|exact Ei]). split.
      * intros v t Hm. rewrite (acc_same_weights _ _ v t W), flatv_adv, <- Ew.
        transitivity (acc (of_key key (flat U)) v t).
        -- unfold acc. generalize (of_key key (flat U)). induction l as [|[[v' t'] r] l IH]; auto. simpl.
           assert (Et : tle (advance_opt m t') t = tle t' t).
           { unfold advance_opt. destruct m as [x|]; auto. rewrite join_tle_b, (Hm x eq_refl). apply andb_true_r. }
           rewrite Et. destruct (eqb v' v && tle t' t); simpl; rewrite ?IH; auto.
        -- rewrite !acc_of_key. apply acc_same_weights, union_weights.
      * intros t Ht. destruct (el_load_times (cl_ops cops) bs U m key vs fuel j1 0 c2 el_new [] c' el Ei S2 ltac:(lia) el_new_rel El) as (gs' & R' & W').
        assert (us = ungroup gs') by (apply el_map_rel in R'; congruence). subst us. apply W' in Ht as [[]|Ht].
        rewrite flatv_adv, <- Ew, map_map in Ht. cbn [fst snd] in Ht. apply in_map_iff in Ht as (u & <- & Hu). exists (snd (fst u)). split; auto.
        apply in_map_iff. exists u. split; auto. apply in_of_key. apply in_of_key in Hu. apply union_in; auto.
    + destruct Emp as (us & Em & A & Ti). { rewrite nth_error_map, Ei. simpl. congruence. }
      exists c1, j1, el_new, us. split; [auto|]. split; [exists 0; exact S1|]. auto 8.
  - destruct Emp as (us & Em & A & Ti). { rewrite nth_error_map, Ei. simpl. congruence. }
    exists c1, j1, el_new, us. split; [auto|]. split; [exists 0; exact S1|]. auto 8.
Qed.
Lemma replay_ok bs fuel c j key m : Forall (bl_ok _ _ laws) bs -> reads bs c j -> past bs j key -> length (flat_map contents bs) <= fuel ->
  exists c' j' h us, replay_key (cl_ops cops) fuel bs c key m = Some (c', h) /\ reads bs c' j' /\ past bs j' key /\ ahead bs j' key /\ (ahead bs j key -> j' = j) /\
    replays h us /\ vh_buffer h = [] /\
    (forall v t, (forall x, m = Some x -> tle x t = true) -> acc us v t = acc (of_key key (flat_map contents bs)) v t) /\
    (forall t, In t (times us) -> exists t0, In t0 (times (of_key key (flat_map contents bs))) /\ t = advance_opt m t0).
Proof.
  intros HB HS HP Hf. destruct (populate_ok bs fuel c j key m HB HS HP Hf) as (c' & j' & el & us & E & S' & P' & A' & J' & Em & Ac & Ti).
  destruct (vh_build_ok el us Em) as (h & us' & Eh & Bh & _ & Pm & Rp). unfold replay_key. rewrite E, Eh. exists c', j', h, us'.
  split; [auto|]. do 6 (split; [auto|]). split.
  - intros v t Hm. rewrite <- Ac by auto. unfold acc. apply dsum_perm, Permutation_map, Permutation_filter; auto.
  - intros t Ht. apply Ti. eapply Permutation_in; [apply Permutation_map; exact Pm|exact Ht].
Qed.
End ReadKey.

(** ** compute *)
Section ComputeKey.
Context {B1 M1 C1 B2 M2 C2 K V1 V2 T R1 R2 : Type} {OK : Ord K} {OV1 : Ord V1} {OV2 : Ord V2} {TT : Time T} {D1 : Diff R1} {D2 : Diff R2} {A2 : Abelian R2}.
Variable logic : K -> list (V1 * R1) -> list (V2 * R2) -> list (V2 * R2).
Variable F : K -> list (V1 * R1) -> V2 -> R2.
Hypothesis F_nil : forall k v, F k [] v = dzero.
Hypothesis logic_ok : forall k i o, consolidated i -> consolidated o -> i <> [] \/ o <> [] -> forall v, dplus (weight (logic k i o) v) (weight o v) = F k i v.
Variable bops1 : BatchOps B1 M1 T. Variable contents1 : B1 -> list (K * V1 * T * R1). Variable laws1 : BatchLaws (D:=K*V1) bops1 contents1.
Variable bops2 : BatchOps B2 M2 T. Variable contents2 : B2 -> list (K * V2 * T * R2). Variable laws2 : BatchLaws (D:=K*V2) bops2 contents2.
Variable cops1 : CursorOps B1 C1 K V1 T R1. Variable new1 : C1.
Variable cops2 : CursorOps B2 C2 K V2 T R2. Variable new2 : C2.
Hypothesis HR1 : readable bops1 contents1 laws1 cops1 new1.
Hypothesis HR2 : readable bops2 contents2 laws2 cops2 new2.
Notation times l := (map (fun u => snd (fst u)) l).

(** a time at or beyond one of those given *)
Definition above (sds : list T) (t : T) : Prop := exists sd, In sd sds /\ tle sd t = true.
Lemma above_dec sds t : {above sds t} + {~ above sds t}.
Proof.
  destruct (existsb (fun s => tle s t) sds) eqn:E.
  - left. apply existsb_exists in E. exact E.
  - right. intros (s & Hs & L). assert (existsb (fun s => tle s t) sds = true) by (apply existsb_exists; eauto). congruence.
Qed.

Lemma compute_ok source output input key f1 f2 f3 sc oc bc js jo jb upper held P (okt good : T -> Prop) :
  Forall (bl_ok _ _ laws1) source -> Forall (bl_ok _ _ laws2) output -> Forall (bl_ok _ _ laws1) input ->
  reads contents1 cops1 source sc js -> reads contents2 cops2 output oc jo -> reads contents1 cops1 input bc jb ->
  past contents1 source js key -> past contents2 output jo key -> past contents1 input jb key -> ahead contents1 input jb key ->
  length (flat_map contents1 source) <= f1 -> length (flat_map contents2 output) <= f2 -> length (flat_map contents1 input) <= f3 ->
  strictly_sorted P ->
  let SI := of_key key (flat_map contents1 source) in let SO := of_key key (flat_map contents2 output) in let NB := of_key key (flat_map contents1 input) in
  let sds := times NB ++ P in
  (forall sd, In sd sds -> exists h, In h held /\ tle h sd = true) ->
  (forall r t, tle r t = true -> okt t -> okt r) ->
  (forall t, above sds t -> good t) ->
  (forall t, okt t -> good t -> (forall p, In p P -> tle p t = false) -> forall v, FA (F key) SI t v = acc SO v t) ->
  (forall t x0 x, okt t -> In x0 (times SI ++ times SO) -> tle x0 x = true -> ac_less_equal upper x = true -> tle x t = true ->
     forall y, above sds y -> tle y t = true -> le y x -> tle y x = true) ->
  exists sc' oc' bc' js' jo' outs new l,
    compute logic upper (cl_ops cops1) (cl_ops cops2) f1 f2 f3 key source sc output oc input bc P (map (fun t => (t, [])) held) [] = Some (sc', oc', bc', outs, new) /\
    reads contents1 cops1 source sc' js' /\ past contents1 source js' key /\ reads contents2 cops2 output oc' jo' /\ past contents2 output jo' key /\
    reads contents1 cops1 input bc' jb /\
    allots held outs l /\ strictly_sorted (map (fun u => (snd (fst u), fst (fst u))) l) /\ Forall (fun u => is_zero (snd u) = false) l /\
    Forall (fun u => above sds (snd (fst u)) /\ ac_less_equal upper (snd (fst u)) = false) l /\
    Forall (fun y => ac_less_equal upper y = true /\ above sds y) new /\
    forall t, okt t -> good t -> (forall y, In y new -> tle y t = false) -> forall v, FA (F key) (SI ++ NB) t v = dplus (acc SO v t) (acc l v t).
Proof.
  intros HS HO HI Rs Ro Rb Ps Po Pb Ab L1 L2 L3 SP SI SO NB sds Hheld Hdown Hgood Hbase Hchain.
  unfold compute.
  destruct (replay_ok bops1 contents1 laws1 cops1 input f3 bc jb key None HI Rb Pb L3) as (bc' & jb' & hb & LB & Eb & Rb' & _ & _ & Jb & RPb & Bb & Ab' & Tb).
  specialize (Jb Ab). subst jb'. rewrite Eb. fold NB in Ab', Tb.
  set (m := update_meet (update_meet None (hd_error (suffix_meet P))) (vh_meet hb)).
  assert (TB : forall t, In t (times LB) -> In t (times NB)). { intros t Ht. destruct (Tb t Ht) as (t0 & H0 & ->). exact H0. }
  assert (Sd : forall t, seeded LB P t -> above sds t).
  { intros t (sd & Hsd & L). exists sd. split; auto. unfold seeds in Hsd. unfold sds. apply in_app_iff in Hsd. apply in_app_iff. destruct Hsd; auto. }
  assert (HM : bounds m (P ++ times LB)).
  { destruct (vh_meet_bounds hb LB RPb) as [Vb1 Vb2]. unfold m.
    destruct (update_meet_bounds (update_meet None (hd_error (suffix_meet P))) (vh_meet hb) P (times LB)) as [H1 _]; auto.
    - pose proof (suffix_meet_hd P) as H. intros x E. cbn [update_meet] in E. destruct (suffix_meet P) as [|y l]; simpl in E; [discriminate|]. inversion E; subst. exact H.
    - destruct P as [|p P0]; auto. cbn [suffix_meet]. destruct (suffix_meet P0); simpl; discriminate. }
  assert (Hmt : forall t, seeded LB P t -> forall x, m = Some x -> tle x t = true).
  { intros t (sd & Hsd & L) x Ex. specialize (HM x Ex). rewrite Forall_forall in HM. eapply tle_trans; [apply HM|exact L].
    unfold seeds in Hsd. apply in_app_iff in Hsd. apply in_app_iff. tauto. }
  destruct (replay_ok bops1 contents1 laws1 cops1 source f1 sc js key m HS Rs Ps L1) as (sc' & js' & hi & LI & Ei & Rs' & Ps' & _ & _ & RPi & Bi & Ai & Ti).
  destruct (replay_ok bops2 contents2 laws2 cops2 output f2 oc jo key m HO Ro Po L2) as (oc' & jo' & ho & LO & Eo & Ro' & Po' & _ & _ & RPo & Bo & Ao & To).
  cbv zeta. fold m. rewrite Ei, Eo. fold SI in Ai, Ti. fold SO in Ao, To.
  rewrite (replays_length _ _ RPb), (replays_length _ _ RPi), (replays_length _ _ RPo).
  assert (AdvM : forall t t0, t = advance_opt m t0 -> tle t0 t = true /\ forall x, m = Some x -> tle x t = true).
  { intros t t0 ->. unfold advance_opt. destruct m as [x|]; [|split; [apply tle_refl|discriminate]]. split; [apply join_ub_l|].
    intros y Ey. inversion Ey; subst. apply join_ub_r. }
  destruct (loop_result logic upper key (F key) (F_nil key) (logic_ok key) LB LI LO P held) with (okt := okt) (hb := hb) (hi := hi) (ho := ho)
     (outs := map (fun t : T => (t, @nil (V2 * T * R2))) held) (m := m) as (s' & l & El & Al & Sl & Zl & Bl & Nl & Fl); auto.
  - intros sd Hsd. apply Hheld. unfold seeds in Hsd. unfold sds. apply in_app_iff in Hsd. apply in_app_iff. destruct Hsd; auto.
  - intros t Ot St Hp v. rewrite (FA_ext (F key) LI SI t t); [|intros a; apply Ai; exact (Hmt t St)]. rewrite Ao by exact (Hmt t St). apply Hbase; auto.
  - intros t x Ot Hx Bx Lx y Sy Lt Ly. assert (exists x0, In x0 (times SI ++ times SO) /\ tle x0 x = true) as (x0 & H0 & L0).
    { apply in_app_iff in Hx as [Hx|Hx]; [destruct (Ti x Hx) as (x0 & H0 & E)|destruct (To x Hx) as (x0 & H0 & E)]; exists x0; (split; [apply in_app_iff; auto|exact (proj1 (AdvM _ _ E))]). }
    apply (Hchain t x0 x); auto.
  - rewrite map_map. cbn [fst]. apply map_id.
  - apply Forall_map. apply Forall_forall. auto.
  - intros x Ex. specialize (HM x Ex). rewrite !Forall_app in *. destruct HM as [HM1 HM2]. split; auto. split; auto. split.
    + apply Forall_forall. intros t Ht. destruct (Ti t Ht) as (t0 & _ & E). apply (AdvM _ _ E); auto.
    + apply Forall_forall. intros t Ht. destruct (To t Ht) as (t0 & _ & E). apply (AdvM _ _ E); auto.
  - cbv zeta in El. rewrite El. cbv iota beta.
    exists sc', oc', bc', js', jo', (cs_outputs s'), (sort_dedup (cs_new s')), l.
    split; [reflexivity|]. do 8 (split; [assumption|]). split.
    { eapply Forall_impl; [|exact Bl]. cbv beta. intros u [H1 H2]. auto. }
    assert (Sn : forall y, In y (sort_dedup (cs_new s')) <-> In y (cs_new s')) by (intros y; apply sort_dedup_in).
    split. { rewrite Forall_forall in *. intros y Hy. apply Sn in Hy. destruct (Nl y Hy). auto. }
    intros t Ot Gt Hn v. destruct (above_dec (seeds LB P) t) as [St|St].
    + rewrite <- (Ao v t) by exact (Hmt t St). rewrite <- (Fl t Ot St); [|intros y Hy; apply Hn, Sn; exact Hy].
      apply FA_ext. intros a. rewrite !acc_app, Ai by exact (Hmt t St). f_equal. symmetry. apply Ab'. discriminate.
    + assert (Nb : forall a, acc NB a t = dzero).
      { intros a. rewrite <- Ab' by discriminate. apply acc_none. intros u Hu. destruct (tle (snd (fst u)) t) eqn:L; auto. exfalso. apply St.
        exists (snd (fst u)). split; auto. unfold seeds. apply in_app_iff. left. apply in_map_iff. eauto. }
      assert (Nl' : acc l v t = dzero).
      { apply acc_none. intros u Hu. destruct (tle (snd (fst u)) t) eqn:L; auto. exfalso. apply St. rewrite Forall_forall in Bl.
        destruct (Bl u Hu) as [(sd & Hsd & L') _]. exists sd. split; auto. eapply tle_trans; eauto. }
      rewrite Nl', dplus_0_r. rewrite <- Hbase; auto.
      * apply FA_ext. intros a. rewrite acc_app, Nb, dplus_0_r. auto.
      * intros p Hp. destruct (tle p t) eqn:L; auto. exfalso. apply St. exists p. split; auto. unfold seeds. apply in_app_iff; auto.
Qed.
End ComputeKey.
