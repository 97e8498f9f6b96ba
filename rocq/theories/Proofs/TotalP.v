(** Operators for totally ordered times. *)
From Coq Require Import Sorting.Sorted.
From Verif Require Export Spec.TotalSpec Proofs.FollowP Proofs.ReadableP.

(** ** The updates of a key, in order *)
Section Hist.
Context {K T R : Type} {OK : Ord K} {TT : Time T} {DR : Diff R}.
Definition hist (us : list (K * unit * T * R)) (k : K) : list (T * R) :=
  map (fun u => (snd (fst u), snd u)) (filter (fun u => eqb (fst (fst (fst u))) k) us).
Definition total_of (ts : list (T * R)) (t : T) : R := dsum (map snd (filter (fun x => tle (fst x) t) ts)).

Lemma hist_app us vs k : hist (us ++ vs) k = hist us k ++ hist vs k.
Proof. unfold hist. rewrite filter_app, map_app. auto. Qed.
Lemma acc_hist us k t : acc us (k, tt) t = total_of (hist us k) t.
Proof.
  unfold acc, total_of, hist. induction us as [|[[[k' []] t'] r] us IH]; simpl; auto.
  assert (Ek : eqb (k', tt) (k, tt) = eqb k' k).
  { destruct (eqb_spec (k', tt) (k, tt)) as [E|E], (eqb_spec k' k) as [E'|E']; auto; [inversion E; congruence|subst; congruence]. }
  rewrite Ek. destruct (eqb k' k); simpl; auto. destruct (tle t' t); simpl; rewrite IH; auto.
Qed.
Lemma hist_flat (tr : trie K unit T R) k : hist (flat tr) k = times_under tr k tt.
Proof.
  unfold times_under, vals_under. induction tr as [|[k' vs] tr IH]; auto. unfold flat in *. cbn [flat_map fst snd]. rewrite hist_app, IH, flat_map_app. f_equal.
  clear IH. induction vs as [|[[] l] vs IH]; [destruct (eqb k' k); auto|]. cbn [flat_map fst snd]. rewrite hist_app, IH.
  assert (E : hist (map (fun tr0 => (k', tt, fst tr0, snd tr0)) l) k = if eqb k' k then l else []).
  { unfold hist. clear. induction l as [|[t r] l IH]; simpl; [destruct (eqb k' k); auto|]. destruct (eqb k' k) eqn:E; simpl; rewrite IH; auto. }
  rewrite E. destruct (eqb k' k); auto.
Qed.
Lemma hist_tries {B} (contents : B -> list (K * unit * T * R)) bs k :
  flat_map (fun tr => times_under tr k tt) (tries contents bs) = hist (flat_map contents bs) k.
Proof.
  unfold tries. induction bs as [|b bs IH]; simpl; auto. rewrite hist_app, IH. f_equal. rewrite <- hist_flat, flat_trie_of. auto.
Qed.
Lemma in_hist us k x : In x (hist us k) <-> In (k, tt, fst x, snd x) us.
Proof.
  unfold hist. rewrite in_map_iff. split.
  - intros ([[[k' []] t] r] & <- & H). apply filter_In in H as [H E]. simpl in *. destruct (eqb_spec k' k); [subst; auto|discriminate].
  - intros H. exists (k, tt, fst x, snd x). split; [destruct x; auto|]. apply filter_In. split; auto. simpl. apply eqb_refl.
Qed.
Lemma unit_singleton (l : list unit) : strictly_sorted l -> l <> [] -> l = [tt].
Proof.
  intros H Hn. destruct l as [|[] [|[] l]]; [congruence|auto|]. inversion H as [| |? ? ? L _]; subst. exfalso. exact (lt_irrefl tt L).
Qed.
Lemma union_entry {B} (contents : B -> list (K * unit * T * R)) bs i k vs : Forall (fun b => consolidated (A:=K*unit*T) (contents b)) bs ->
  nth_error (union_trie (tries contents bs)) i = Some (k, vs) -> vs = [(tt, hist (flat_map contents bs) k)] /\ hist (flat_map contents bs) k <> [].
Proof.
  intros HC H. pose proof H as H0. unfold union_trie in H. rewrite nth_error_map in H. destruct (nth_error (sort_set _) i) as [k'|] eqn:E; [|discriminate]. inversion H; subst k' vs. clear H.
  apply nth_error_In in E. rewrite in_sort_set in E. apply in_flat_map in E as (tr & Htr & Hk). apply in_map_iff in Htr as (b & <- & Hb).
  rewrite Forall_forall in HC. pose proof (trie_of_wf _ (HC b Hb)) as [_ W]. apply in_map_iff in Hk as ([k' vs] & Ek & Hk). simpl in Ek. subst k'.
  rewrite Forall_forall in W. destruct (W _ Hk) as (W1 & _ & W3). simpl in *. destruct vs as [|[[] l] vs]; [congruence|].
  inversion W3 as [|? ? [W4 _] _]; subst. simpl in W4.
  assert (Hn : sort_set (flat_map (fun tr => map fst (vals_under tr k)) (tries contents bs)) = [tt]).
  { apply unit_singleton; [apply sort_set_sorted|]. intros En. assert (In tt []) as []. rewrite <- En, in_sort_set. apply in_flat_map. exists (trie_of (contents b)).
    split; [apply in_map_iff; eauto|]. apply in_map_iff. exists (tt, l). split; auto. unfold vals_under. apply in_flat_map. exists (k, (tt, l) :: vs). split; auto.
    simpl. rewrite eqb_refl. left; auto. }
  rewrite Hn. simpl. rewrite hist_tries. split; auto. intros En. destruct l as [|[t r] l]; [congruence|].
  assert (In (t, r) []) as []. rewrite <- En. apply in_hist. apply in_flat_map. exists b. split; auto. rewrite <- (flat_trie_of (contents b)). unfold flat.
  apply in_flat_map. exists (k, (tt, (t, r) :: l) :: vs). split; auto. simpl. left. auto.
Qed.
Lemma union_absent {B} (contents : B -> list (K * unit * T * R)) bs k : ~ In k (map fst (union_trie (tries contents bs))) -> hist (flat_map contents bs) k = [].
Proof.
  intros H. destruct (hist (flat_map contents bs) k) as [|[t r] l] eqn:E; auto. exfalso. apply H. apply (in_keys_U (tries contents bs)).
  assert (Hi : In (t, r) (hist (flat_map contents bs) k)) by (rewrite E; left; auto).
  apply in_hist in Hi. apply in_flat_map in Hi as (b & Hb & Hi). exists (trie_of (contents b)). split; [apply in_map_iff; eauto|].
  simpl in Hi. rewrite <- (flat_trie_of (contents b)) in Hi. unfold flat in Hi. apply in_flat_map in Hi as ([k' vs] & He & Hi).
  apply in_flat_map in Hi as ([v ts] & Hv & Hi). apply in_map_iff in Hi as (x & Ex & _). inversion Ex; subst. apply in_map_iff. exists (k, vs). auto.
Qed.
End Hist.

(** ** The loop over keys *)
Section Keys.
Context {B M C K T R X : Type} {OK : Ord K} {TT : Time T} {DR : Diff R}.
Variable ops : BatchOps B M T. Variable contents : B -> list (K * unit * T * R). Variable laws : BatchLaws (D:=K*unit) ops contents.
Variable cops : CursorOps B C K unit T R. Variable new : C.
Hypothesis HR : readable ops contents laws cops new.
Variable emit : K -> option R -> T -> R -> list X.

Definition key_out (bs tbs : list B) (k : K) : list X := emit_all emit k (count_all (hist (flat_map contents tbs) k)) (hist (flat_map contents bs) k).

Lemma ok_consolidated bs : Forall (bl_ok _ _ laws) bs -> Forall (fun b => consolidated (A:=K*unit*T) (contents b)) bs.
Proof. apply Forall_impl. intros b Hb. apply (HR b Hb). Qed.

Lemma total_keys_ok bs tbs : Forall (bl_ok _ _ laws) bs -> Forall (bl_ok _ _ laws) tbs ->
  let U := union_trie (tries contents bs) in let V := union_trie (tries contents tbs) in
  forall fuel i j jv bc tc, length U - i <= fuel -> shows (cl_ops cops) bs U bc {| kp := i; vp := 0 |} -> shows (cl_ops cops) tbs V tc {| kp := j; vp := jv |} ->
  (forall n k, n < j -> nth_error (map fst V) n = Some k -> forall k', In k' (map fst (skipn i U)) -> lt k k') ->
  total_keys cops emit fuel bs tbs bc tc = Some (flat_map (key_out bs tbs) (map fst (skipn i U))).
Proof.
  intros HB HT U V. induction fuel as [|fuel IH]; intros i j jv bc tc Hf SB ST HJ.
  - cbn [total_keys]. rewrite (shows_get_key _ _ _ _ _ SB). unfold at_key. cbn [kp].
    rewrite (proj2 (nth_error_None U i)) by lia. simpl. rewrite skipn_all2 by lia. auto.
  - cbn [total_keys]. rewrite (shows_get_key _ _ _ _ _ SB). unfold at_key. cbn [kp].
    destruct (nth_error U i) as [[k vs]|] eqn:Ei; simpl option_map.
    2:{ apply nth_error_None in Ei. rewrite skipn_all2 by lia. auto. }
    destruct (union_entry contents bs i k vs (ok_consolidated bs HB) Ei) as [Ev Hne].
    destruct (shows_nav _ _ _ _ _ (SeekKey k) ST) as (tc1 & Et & ST1); [exact I|exact I|]. cbn [c_nav] in Et. rewrite Et.
    cbn [move kp] in ST1. set (j1 := j + prefix_len (fun e => ltb (fst e) k) (skipn j V)) in *.
    rewrite (shows_get_key _ _ _ _ _ ST1). unfold at_key. cbn [kp].
    assert (Hsk : skipn i U = (k, vs) :: skipn (S i) U) by (apply nth_error_skipn_cons; auto).
    pose proof (keys_U_sorted (tries contents tbs)) as VS. fold V in VS. unfold keys in VS.
    pose proof (keys_U_sorted (tries contents bs)) as US. fold U in US. unfold keys in US.
    assert (Before : forall n k0, n < j1 -> nth_error (map fst V) n = Some k0 -> lt k0 k).
    { intros n k0 Hn E0. destruct (Nat.lt_ge_cases n j) as [Hl|Hl].
      - apply (HJ n k0 Hl E0). rewrite Hsk. left; auto.
      - rewrite nth_error_map in E0. destruct (nth_error V n) as [e|] eqn:E1; [|discriminate]. inversion E0; subst k0.
        assert (E2 : nth_error (skipn j V) (n - j) = Some e) by (rewrite nth_error_skipn; replace (j + (n - j)) with n by lia; auto).
        assert (Hl2 : n - j < prefix_len (fun e => ltb (fst e) k) (skipn j V)) by (unfold j1 in Hn; lia).
        apply ltb_lt. clear - E2 Hl2. revert E2 Hl2. generalize (n - j) as m. generalize (skipn j V) as l. induction l as [|x l IH]; intros m E2 Hl2; [destruct m; discriminate|].
        simpl in Hl2. destruct (ltb (fst x) k) eqn:E; [|lia]. destruct m; simpl in E2; [inversion E2; subst; auto|]. eapply IH; eauto. lia. }
    assert (At : forall e, nth_error V j1 = Some e -> le k (fst e)).
    { intros e E1. apply ltb_ge. assert (E2 : nth_error (skipn j V) (prefix_len (fun e => ltb (fst e) k) (skipn j V)) = Some e) by (rewrite nth_error_skipn; exact E1).
      clear - E2. revert E2. generalize (skipn j V) as l. induction l as [|x l IH]; simpl; [discriminate|]. destruct (ltb (fst x) k) eqn:E; simpl; auto. intros E2. inversion E2; subst; auto. }
    assert (Cnt : (if match option_map fst (nth_error V j1) with Some k0 => eqb k0 k | None => false end then ts <- c_map_times (cl_ops cops) tbs tc1; Some (count_all ts) else Some None)
      = Some (count_all (hist (flat_map contents tbs) k))).
    { assert (Abs : (forall e, nth_error V j1 = Some e -> fst e <> k) -> hist (flat_map contents tbs) k = []).
      { intros Hna. apply union_absent. fold V. intros Hin. apply In_nth_error in Hin as (n & En). destruct (Nat.lt_trichotomy n j1) as [Hl|[Hl|Hl]].
        - apply (lt_irrefl k). eapply Before; eauto.
        - subst n. rewrite nth_error_map in En. destruct (nth_error V j1) as [e|] eqn:E1; [|discriminate]. inversion En. eapply Hna; eauto.
        - destruct (nth_error V j1) as [e|] eqn:E1.
          + pose proof (sorted_nth _ j1 n (fst e) k VS Hl) as L. rewrite nth_error_map, E1 in L. specialize (L eq_refl En).
            pose proof (At e eq_refl) as L2. apply (lt_irrefl k). eapply le_lt_trans; eauto.
          + apply nth_error_None in E1. assert (n < length (map fst V)) by (apply nth_error_Some; congruence). rewrite map_length in *. lia. }
      destruct (nth_error V j1) as [[k0 vs0]|] eqn:E1; cbn [option_map fst].
      - destruct (eqb_spec k0 k) as [->|Hk].
        + destruct (union_entry contents tbs j1 k vs0 (ok_consolidated tbs HT) E1) as [-> _].
          assert (Hk : at_key V {| kp := j1; vp := 0 |} = Some k) by (unfold at_key; simpl; rewrite E1; auto).
          destruct (shows_get_val _ _ _ _ _ _ ST1 Hk) as [_ Em]. unfold at_val, at_times, cur_vals in Em. cbn [kp vp] in Em. rewrite E1 in Em.
          simpl in Em. simpl c_map_times. simpl. rewrite Em by discriminate. auto.
        + rewrite Abs; auto. intros e Ee. inversion Ee; subst; auto.
      - rewrite Abs; auto. intros e Ee. discriminate. }
    rewrite Cnt.
    assert (Hk : at_key U {| kp := i; vp := 0 |} = Some k) by (unfold at_key; simpl; rewrite Ei; auto).
    destruct (shows_get_val _ _ _ _ _ _ SB Hk) as [_ Em]. unfold at_val, at_times, cur_vals in Em. cbn [kp vp] in Em. rewrite Ei, Ev in Em. simpl nth_error in Em.
    rewrite Em by discriminate.
    destruct (shows_nav _ _ _ _ _ StepKey SB) as (bc1 & Eb & SB1); [exact I|exact I|]. cbn [c_nav] in Eb. rewrite Eb.
    assert (Hlt : i < length U) by (apply nth_error_Some; congruence).
    cbn [move kp] in SB1. rewrite Nat.min_l in SB1 by lia.
    erewrite (IH (S i) j1 0 bc1 tc1); [|lia|exact SB1|exact ST1|].
    + rewrite Hsk. cbn [map flat_map fst]. reflexivity.
    + intros n k0 Hn E0 k' Hk'. eapply lt_trans; [eapply Before; eauto|].
      rewrite <- skipn_fst in Hk'. apply In_nth_error in Hk' as (m & Em'). rewrite nth_error_skipn in Em'.
      apply (sorted_nth _ i (S i + m) k k' US); [lia| |exact Em']. rewrite nth_error_map, Ei. auto.
Qed.
End Keys.

(** ** The meaning of what is produced *)
Section Sem.
Context {K D T R R2 : Type} {OK : Ord K} {OD : Ord D} {TT : Time T} {TO : TotalTime T} {DR : Diff R} {D2 : Diff R2}.
Variable emit : K -> option R -> T -> R -> list (D * T * R2).
(** the key an output belongs to, and its multiplicity given the accumulation of the key *)
Variable key_of : D -> K. Variable G : D -> R -> R2.
Definition cval (c : option R) : R := match c with Some c => c | None => dzero end.
Record emits_ok : Prop := {
  eo_time : forall k c t r, Forall (fun u => snd (fst u) = t) (emit k c t r);
  eo_other : forall k c t r d s, key_of d <> k -> acc (emit k c t r) d s = dzero;
  eo_change : forall c t r d, dplus (acc (emit (key_of d) c t r) d t) (G d (cval c)) = G d (dplus (cval c) r);
  eo_zero : forall d, G d dzero = dzero
}.
Hypothesis HE : emits_ok.
Definition ordered (ts : list (T * R)) : Prop := StronglySorted (fun a b => tle (fst a) (fst b) = true) ts.

Lemma cval_plus c r : cval (count_plus c r) = dplus (cval c) r.
Proof. destruct c; simpl; auto. rewrite dplus_0_l. auto. Qed.
Lemma cval_all (ts : list (T * R)) : cval (count_all ts) = dsum (map snd ts).
Proof.
  unfold count_all. assert (H : forall c, cval (fold_left (fun c td => count_plus c (snd td)) ts c) = dplus (cval c) (dsum (map snd ts))).
  { induction ts as [|x ts IH]; intros c; simpl; [rewrite dplus_0_r; auto|]. rewrite IH, cval_plus, dplus_assoc. auto. }
  rewrite H. apply dplus_0_l.
Qed.
Lemma total_app (a b : list (T * R)) s : total_of (a ++ b) s = dplus (total_of a s) (total_of b s).
Proof. unfold total_of. rewrite filter_app, map_app, dsum_app. auto. Qed.
Lemma total_all (ts : list (T * R)) s : Forall (fun x => tle (fst x) s = true) ts -> total_of ts s = dsum (map snd ts).
Proof. intros H. unfold total_of. f_equal. f_equal. induction H as [|x ts Hx _ IH]; simpl; auto. rewrite Hx, IH. auto. Qed.
Lemma total_none (ts : list (T * R)) s : Forall (fun x => tle (fst x) s = false) ts -> total_of ts s = dzero.
Proof. intros H. unfold total_of. induction H as [|x ts Hx _ IH]; simpl; auto. rewrite Hx, IH. auto. Qed.
Lemma acc_at (us : list (D * T * R2)) t s d : Forall (fun u => snd (fst u) = t) us -> acc us d s = if tle t s then acc us d t else dzero.
Proof.
  intros H. destruct (tle t s) eqn:Es; induction H as [|u us Hu _ IH]; auto.
  - rewrite !acc_cons', IH, Hu, Es, tle_refl. auto.
  - rewrite acc_cons', IH, Hu, Es, andb_false_r, dplus_0_l. auto.
Qed.
Lemma emit_none k ts s d : Forall (fun x => tle (fst x) s = false) ts -> forall c, acc (emit_all emit k c ts) d s = dzero.
Proof.
  induction 1 as [|[t r] ts Hx _ IH]; intros c; auto. cbn [emit_all]. rewrite acc_app, IH, (acc_at _ t s), dplus_0_r by apply HE. simpl in Hx. rewrite Hx. auto.
Qed.
Lemma emit_other k ts s d : key_of d <> k -> forall c, acc (emit_all emit k c ts) d s = dzero.
Proof.
  intros Hk. induction ts as [|[t r] ts IH]; intros c; auto. cbn [emit_all]. rewrite acc_app, IH, (eo_other HE), dplus_0_r; auto.
Qed.
Lemma ordered_late (ts : list (T * R)) t r s : ordered ((t, r) :: ts) -> tle t s = false -> Forall (fun x => tle (fst x) s = false) ((t, r) :: ts).
Proof.
  intros H Es. apply StronglySorted_inv in H as [_ HF]. constructor; auto. eapply Forall_impl; [|exact HF]. cbv beta. intros x Hx. simpl in Hx.
  destruct (tle (fst x) s) eqn:E; auto. rewrite (tle_trans _ _ _ Hx E) in Es. discriminate.
Qed.
Lemma emit_all_ok ts s d : ordered ts -> forall c,
  dplus (acc (emit_all emit (key_of d) c ts) d s) (G d (cval c)) = G d (dplus (cval c) (total_of ts s)).
Proof.
  intros Ho. induction ts as [|[t r] ts IH]; intros c.
  - simpl. rewrite acc_nil. unfold total_of. simpl. rewrite dplus_0_l, dplus_0_r. auto.
  - destruct (tle t s) eqn:Es.
    + pose proof Ho as Ho'. apply StronglySorted_inv in Ho' as [Ho' _]. specialize (IH Ho' (count_plus c r)). rewrite cval_plus in IH.
      change ((t, r) :: ts) with ([(t, r)] ++ ts). rewrite total_app. cbn [emit_all app]. rewrite acc_app, (acc_at _ t s) by apply HE. rewrite Es.
      rewrite (total_all [(t, r)]) by (constructor; auto). simpl map. change (dsum [r]) with (dplus r dzero). rewrite dplus_0_r.
      rewrite <- (dplus_assoc (cval c) r). rewrite <- IH, <- (eo_change HE c t r d). dperm.
    + rewrite (emit_none _ _ _ _ (ordered_late _ _ _ _ Ho Es)), (total_none _ _ (ordered_late _ _ _ _ Ho Es)), dplus_0_l, dplus_0_r. auto.
Qed.

Lemma ordered_app (a b : list (T * R)) : ordered (a ++ b) <-> ordered a /\ ordered b /\ forall x y, In x a -> In y b -> tle (fst x) (fst y) = true.
Proof.
  unfold ordered. induction a as [|x a IH]; simpl.
  - split; [intros H; split; [constructor|split; auto; tauto]|tauto].
  - split.
    + intros H. apply StronglySorted_inv in H as [H HF]. apply IH in H as (H1 & H2 & H3). apply Forall_app in HF as [F1 F2]. rewrite Forall_forall in F2.
      split; [constructor; auto|]. split; auto. intros y z [<-|Hy] Hz; auto.
    + intros (H1 & H2 & H3). apply StronglySorted_inv in H1 as [H1 HF]. constructor; [apply IH; auto|]. apply Forall_app. split; auto. apply Forall_forall; auto.
Qed.

(** new updates [b] of a key after [a], when the trace accumulates to the total of [a] *)
Lemma extend_ok (a b tr : list (T * R)) s d : ordered (a ++ b) -> dsum (map snd tr) = dsum (map snd a) ->
  dplus (G d (total_of a s)) (acc (emit_all emit (key_of d) (count_all tr) b) d s) = G d (total_of (a ++ b) s).
Proof.
  intros Ho Ht. apply ordered_app in Ho as (Oa & Ob & Oab). rewrite total_app. destruct b as [|[t r] b].
  - simpl. unfold total_of at 3. simpl. rewrite acc_nil, !dplus_0_r. auto.
  - destruct (tle t s) eqn:Es.
    + rewrite (total_all a). 2:{ apply Forall_forall. intros x Hx. eapply tle_trans; [apply (Oab x (t, r)); simpl; auto|exact Es]. }
      rewrite <- Ht, <- cval_all, dplus_comm. apply emit_all_ok; auto.
    + rewrite (emit_none _ _ _ _ (ordered_late _ _ _ _ Ob Es)), (total_none _ _ (ordered_late _ _ _ _ Ob Es)), !dplus_0_r. auto.
Qed.

(** one batch *)
Lemma batch_ordered (us : list (K * unit * T * R)) k : consolidated (A:=K*unit*T) us -> ordered (hist us k).
Proof.
  induction us as [|[[[k' []] t] r] us IH]; intros H; [constructor|].
  apply consolidated_cons_inv in H as (H1 & _ & H3). specialize (IH H1). unfold hist in *. cbn [filter fst snd]. destruct (eqb_spec k' k) as [->|]; auto.
  cbn [map]. constructor; auto. apply Forall_forall. intros [t' r'] Hx. fold (hist us k) in Hx. apply in_hist in Hx. simpl in *.
  rewrite Forall_forall in H3. specialize (H3 _ Hx). unfold lt in H3. change (pair_cmp (k, tt, t) (k, tt, t') = Lt) in H3. unfold pair_cmp in H3 at 1. cbn [fst snd] in H3. rewrite cmp_refl in H3.
  apply total_tle_le. unfold le. congruence.
Qed.
End Sem.

(** ** The operator *)
Section World.
Context {B M C K D T R R2 : Type} {OK : Ord K} {OD : Ord D} {TT : Time T} {TO : TotalTime T} {DR : Diff R} {D2 : Diff R2}.
Variable ops : BatchOps B M T. Variable contents : B -> list (K * unit * T * R). Variable laws : BatchLaws (D:=K*unit) ops contents.
Variable cops : CursorOps B C K unit T R. Variable new : C.
Variable emit : K -> option R -> T -> R -> list (D * T * R2).
Variable key_of : D -> K. Variable G : D -> R -> R2.
Hypothesis HR : readable ops contents laws cops new.
Hypothesis HE : emits_ok emit key_of G.
Notation in_interval := (in_interval ops contents).
Notation tworld := (tworld B M T (D * T * R2)).
Notation proper := (proper ops contents laws).
Notation tstep := (tstep ops contents laws cops new emit).
Notation treaches := (treaches ops contents laws cops new emit).

Lemma tiles_ordered k h : forall lo up, tiles ops lo h up -> Forall proper h -> Forall in_interval h ->
  ordered (hist (flat_map contents h) k) /\ Forall (fun u => beyond lo (snd (fst u))) (flat_map contents h).
Proof.
  induction h as [|b h IH]; intros lo up HT HP HI; [split; constructor|]. inversion HT as [|? ? ? ? L1 T1]; inversion HP as [|? ? Pb HP']; inversion HI as [|? ? Ib HI']; subst.
  destruct (IH _ _ T1 HP' HI') as [IH1 IH2]. simpl. unfold in_interval in Ib. rewrite Forall_forall in Ib, IH2. split.
  - rewrite hist_app. apply ordered_app. split; [apply batch_ordered, (HR b), Pb|]. split; auto. intros x y Hx Hy. apply in_hist in Hx, Hy.
    destruct (Ib _ Hx) as [_ Nx]. destruct (IH2 _ Hy) as (u & Hu & Hy'). simpl in *. destruct (tle_total (fst x) u) as [Hl|Hl]; [eapply tle_trans; eauto|].
    exfalso. apply Nx. exists u. auto.
  - apply Forall_forall. intros u Hu. apply in_app_iff in Hu as [Hu|Hu].
    + apply L1, (Ib u Hu).
    + apply L1, (pr_le _ _ _ _ Pb), (IH2 u Hu).
Qed.

Lemma key_out_acc bs tbs ks d s : NoDup ks ->
  acc (flat_map (key_out contents emit bs tbs) ks) d s = if in_dec eq_dec (key_of d) ks then acc (key_out contents emit bs tbs (key_of d)) d s else dzero.
Proof.
  induction 1 as [|k ks Hk _ IH]; [reflexivity|]. simpl flat_map. rewrite acc_app, IH. destruct (in_dec eq_dec (key_of d) ks) as [Hi|Hi], (in_dec eq_dec (key_of d) (k :: ks)) as [Hi'|Hi'].
  - unfold key_out at 1. rewrite (emit_other emit key_of G HE), dplus_0_l by congruence. auto.
  - exfalso. apply Hi'. right; auto.
  - destruct Hi' as [<-|Hi']; [rewrite dplus_0_r; auto|contradiction].
  - unfold key_out. rewrite (emit_other emit key_of G HE), dplus_0_l; auto. intros E. apply Hi'. left; auto.
Qed.
Lemma read_ok bs tbs : Forall (bl_ok _ _ laws) bs -> Forall (bl_ok _ _ laws) tbs ->
  exists bc tc us, cursor_list cops new bs = Some bc /\ cursor_list cops new tbs = Some tc /\
    total_keys cops emit (sum_len (b_len ops) bs) bs tbs bc tc = Some us /\
    (forall d s, acc us d s = acc (key_out contents emit bs tbs (key_of d)) d s) /\
    (forall u, In u us -> exists x, In x (flat_map contents bs) /\ snd (fst u) = snd (fst x)).
Proof.
  intros HB HT. destruct (cursor_list_no_seek ops contents laws cops new HR bs HB) as (bc & Eb & Pb). destruct (cursor_list_no_seek ops contents laws cops new HR tbs HT) as (tc & Et & Pt).
  exists bc, tc. eexists. split; [exact Eb|]. split; [exact Et|].
  pose proof (sum_len_contents ops contents laws bs HB) as EL. destruct (union_length contents bs) as [UL _].
  split; [eapply (total_keys_ok ops contents laws cops new HR emit bs tbs HB HT _ 0 0 0); [rewrite EL; lia|apply shows_start; exact Pb|apply shows_start; exact Pt|intros; lia]|].
  simpl skipn. split.
  - intros d s. rewrite key_out_acc by (apply strictly_sorted_nodup, (keys_U_sorted (tries contents bs))).
    destruct (in_dec eq_dec (key_of d) _) as [Hi|Hi]; auto. unfold key_out. rewrite (union_absent contents bs (key_of d) Hi). reflexivity.
  - intros u Hu. apply in_flat_map in Hu as (k & _ & Hu). unfold key_out in Hu.
    assert (exists x, In x (hist (flat_map contents bs) k) /\ snd (fst u) = fst x) as (x & Hx & Ex).
    { revert Hu. generalize (count_all (hist (flat_map contents tbs) k)) as c. generalize (hist (flat_map contents bs) k) as l. induction l as [|[t r] l IH]; intros c Hu; [destruct Hu|].
      cbn [emit_all] in Hu. apply in_app_iff in Hu as [Hu|Hu].
      - exists (t, r). split; [left; auto|]. pose proof (eo_time _ _ _ HE k c t r) as F. rewrite Forall_forall in F. apply (F u Hu).
      - destruct (IH _ Hu) as (x & Hx & Ex). exists x. split; [right; auto|auto]. }
    apply in_hist in Hx. exists (k, tt, fst x, snd x). auto.
Qed.

(** all differences of a key, when times are totally ordered *)
Lemma late_time (L : list T) (us vs : list (K * unit * T * R)) : L <> [] ->
  exists t, beyond L t /\ Forall (fun u => tle (snd (fst u)) t = true) us /\ Forall (fun u => tle (snd (fst u)) t = true) vs.
Proof.
  intros HL. destruct L as [|l L]; [congruence|].
  assert (H : forall us (t0 : T), exists t, tle t0 t = true /\ Forall (fun u : K * unit * T * R => tle (snd (fst u)) t = true) us).
  { clear us vs. induction us as [|u us IH]; intros t0; [exists t0; split; [apply tle_refl|constructor]|].
    destruct (IH (join t0 (snd (fst u)))) as (t & Ht & HF). exists t. split; [eapply tle_trans; [apply join_ub_l|exact Ht]|].
    constructor; auto. eapply tle_trans; [apply join_ub_r|exact Ht]. }
  destruct (H (us ++ vs) l) as (t & Ht & HF). apply Forall_app in HF as [F1 F2]. exists t. split; [exists l; split; [left; auto|exact Ht]|auto].
Qed.
Lemma same_totals (L : list T) (us vs : list (K * unit * T * R)) k : L <> [] -> same_beyond (D:=K*unit) L us vs -> dsum (map snd (hist us k)) = dsum (map snd (hist vs k)).
Proof.
  intros HL HS. destruct (late_time L us vs HL) as (t & Ht & F1 & F2). specialize (HS (k, tt) t Ht). rewrite !acc_hist in HS.
  rewrite !total_all in HS; auto; apply Forall_forall; intros x Hx; apply in_hist in Hx; rewrite Forall_forall in F1, F2; [apply (F2 _ Hx)|apply (F1 _ Hx)].
Qed.

Definition tinv (w : tworld) : Prop := exists accd rest, follows ops contents laws (tw_in w) (ts_upper (tw_op w)) accd rest /\
  holds (tw_in w) (ts_upper (tw_op w)) (ts_handle (tw_op w)) /\ Forall in_interval (sd_hist (tw_in w)) /\
  forall d t, acc (t_produced w) d t = G d (acc (flat_map contents accd) (key_of d, tt) t).

Lemma tstarts_inv h w : tstarts ops contents laws h w -> tinv w.
Proof.
  intros ((e & HB) & Eh & Ef & HA & HN & HP & Eo & Eout). exists [], []. destruct w as [sd st out]. simpl in *. subst st out.
  assert (Eu : same_future (sd_upper sd) ([tmin] : list T)).
  { pose proof (begins_inv _ _ _ _ _ HB) as (n & HS). pose proof (si_tiles _ _ _ _ _ _ _ _ _ HS) as Ht. rewrite Eh in Ht. inversion Ht; subst. apply same_future_sym; auto. }
  assert (Ea : ac_from ([tmin] : list T) = [tmin]) by reflexivity.
  split; [|split; [|split]].
  - cbn. apply follows_intro; simpl; rewrite ?Ef; auto.
    + eapply begins_inv; eauto.
    + exists [tmin]. split; [constructor|]; apply same_future_refl.
    + constructor; [intros y []|constructor].
    + constructor.
  - cbn. split; [exact HA|]. split; [auto|]. intros t _. apply HP.
  - rewrite Eh. constructor.
  - intros d t. simpl flat_map. rewrite (acc_nil (D:=K*unit)), (eo_zero _ _ _ HE). reflexivity.
Qed.

Lemma activate_ok (w : tworld) msgs F s' : tinv w -> delivers contents (tw_in w) msgs F s' -> prompt ops contents msgs s' ->
  exists st' outs, t_activate ops cops new emit (sd_spine (tw_in w)) msgs (tw_op w) = Some (st', outs) /\
    tinv {| tw_in := s'; tw_op := st'; tw_out := tw_out w ++ outs |} /\
    Forall (fun o => beyond (sd_front (tw_in w)) (fst o) /\ Forall (fun u => tle (fst o) (snd (fst u)) = true) (snd o)) outs.
Proof.
  intros (accd & rest & HF & HH & HI & HA) (q & Eq & Es & Hm & Hf & Hq) [Hp Hne]. destruct w as [sd [ack h] out]. simpl in *.
  destruct (fo_recv_all ops contents laws (flat_map snd msgs) sd ack accd rest q HF Eq) as (bs' & rest1 & Er & Pbs & Ec & Sb & Nb & _ & HF1).
  set (bs := flat_map snd msgs) in *. unfold t_activate. cbn [ts_upper ts_handle]. fold bs. fold (last_upper ops ack bs).
  assert (HH1 : holds (with_flight sd q (sd_front sd)) (last_upper ops ack bs) h).
  { destruct HH as (H1 & H2 & H3). split; [exact H1|]. split; [|intros t Ht; apply H3, Sb, Ht]. intros Hn. apply H2. eapply sub_nonempty; eauto. }
  assert (Hs' : s' = with_flight sd q F) by (subst; reflexivity).
  destruct (fo_pass ops contents laws _ _ _ _ h HF1 HH1) as (es & rest' & Er1 & Fe & HF2 & Sb2 & _).
  { simpl. subst s'. exact Hne. }
  simpl sd_spine in *. set (ack' := advance_upper ops (sd_spine sd) (last_upper ops ack bs)) in *.
  assert (Hord : forall k, ordered (hist (flat_map contents accd ++ flat_map contents bs) k)).
  { intros k. destruct HF2 as [TK _]. pose proof (tk_hist _ _ _ _ _ _ _ _ TK) as Eh. simpl in Eh. rewrite Eh in HI. apply Forall_app in HI as [HI1 _]. pose proof (tk_proper _ _ _ _ _ _ _ _ TK) as Pr. apply Forall_app in Pr as [Pr _].
    destruct (tk_mid _ _ _ _ _ _ _ _ TK) as (mid & HT & _). destruct (tiles_ordered k _ _ _ HT Pr HI1) as [O _].
    rewrite !flat_map_app, (flat_map_empty contents _ Fe), app_nil_r, Ec in O. exact O. }
  assert (Houts : exists outs, (match msgs with [] => Some [] | (cap, _) :: _ =>
              bc <- cursor_list cops new bs; tbs <- batches_through ops (sd_spine sd) ack; tc <- cursor_list cops new tbs;
              us <- total_keys cops emit (sum_len (b_len ops) bs) bs tbs bc tc; Some [(cap, us)] end) = Some outs /\
     (forall d t, dplus (G d (acc (flat_map contents accd) (key_of d, tt) t)) (acc (flat_map snd outs) d t) = G d (acc (flat_map contents accd ++ flat_map contents bs) (key_of d, tt) t)) /\
     Forall (fun o => beyond (sd_front sd) (fst o) /\ Forall (fun u => tle (fst o) (snd (fst u)) = true) (snd o)) outs).
  { destruct msgs as [|[cap ms] msgs].
    - exists []. split; auto. split; [|constructor]. intros d t. simpl. rewrite acc_nil, dplus_0_r, app_nil_r. auto.
    - inversion Hp as [|? ? [Hms Hcap] Hp']; inversion Hm as [|? ? [Hm1 Hm2] Hm']; subst. simpl in Hms, Hcap, Hm1, Hm2.
      assert (Hbs : bs <> []) by (unfold bs; simpl; destruct ms; [congruence|discriminate]).
      assert (Hack : ack <> []) by auto.
      destruct h as [HL HP]. pose proof (fo_held sd ack (HL, HP) HH Hack) as Hheld.
      destruct (tk_read ops contents laws _ _ _ _ _ HL HP (fo_tracks _ _ _ _ _ _ _ HF) Hheld) as (tbs & Etb & Otb & Stb).
      assert (HLn : sd_logical sd <> []) by (destruct Hheld as [[HA1 _] [HN _]]; eapply sub_nonempty; eauto).
      assert (Obs : Forall (bl_ok _ _ laws) bs) by (eapply Forall_impl; [|exact Pbs]; intros b Hb; apply Hb).
      destruct (read_ok bs tbs Obs Otb) as (bc & tc & us & Ebc & Etc & Eus & Aus & Tus). rewrite Ebc, Etb, Etc, Eus. eexists; split; [reflexivity|]. split.
      + intros d t. simpl. rewrite app_nil_r, Aus. unfold key_out. rewrite !acc_hist, hist_app. apply (extend_ok emit key_of G HE); [rewrite <- hist_app; apply Hord|].
        eapply same_totals; eauto.
      + constructor; [|constructor]. simpl. split; [auto|]. apply Forall_forall. intros u Hu. destruct (Tus u Hu) as (x & Hx & ->).
        apply in_flat_map in Hx as (b & Hb & Hx). unfold bs in Hb. simpl in Hb. apply in_app_iff in Hb as [Hb|Hb].
        * rewrite Forall_forall in Hm2. specialize (Hm2 b Hb). rewrite Forall_forall in Hm2. apply Hm2, Hx.
        * destruct ms as [|b0 ms]; [congruence|]. pose proof (Forall_inv Hcap) as Hc0.
          assert (Hbey : beyond (upper_of ops b0) (snd (fst x))).
          { assert (Hsd : sd_flight sd = b0 :: (ms ++ flat_map snd msgs ++ q)) by (rewrite Eq; unfold bs; simpl; rewrite <- app_assoc; auto).
            destruct (fo_recv ops contents laws sd ack accd _ b0 _ HF Hsd) as (es0 & rest0 & E0 & _ & _ & _ & [TK0 S0]).
            destruct (tk_tiles _ _ _ _ _ _ _ _ TK0) as (mid & _ & T2 & HM). pose proof (tk_proper _ _ _ _ _ _ _ _ TK0) as Pr0. apply Forall_app in Pr0 as [_ Pr0].
            pose proof (tk_hist _ _ _ _ _ _ _ _ TK0) as Eh0. simpl in Eh0. rewrite Eh0 in HI. apply Forall_app in HI as [_ HI2].
            destruct (tiles_ordered (fst (fst (fst x))) _ _ _ T2 Pr0 HI2) as [_ Bey]. rewrite Forall_forall in Bey. apply HM, Bey.
            apply in_flat_map. exists b. split; auto. eapply sent_in; [exact S0|]. simpl. rewrite !in_app_iff. auto. }
          destruct Hbey as (f & Hf1 & Hf2). destruct (tle_total cap f) as [Hl|Hl]; [eapply tle_trans; eauto|]. exfalso. apply Hc0. exists f. auto. }
  destruct Houts as (outs & Eo & Ao & Fo). rewrite Eo. eexists _, outs. split; [reflexivity|]. split; [|exact Fo].
  exists ((accd ++ bs') ++ es), rest'. cbn [tw_in tw_op ts_upper ts_handle]. split; [|split; [|split]].
  - subst s'. apply (follows_front ops contents laws) with (F := F) in HF2; [exact HF2|exact Hq].
  - subst s'. apply (holds_advance sd ack ack' h HH); [intros t Ht; apply Sb, Sb2, Ht|]. intros Hn. eapply sub_nonempty; [|exact Hn]. intros t Ht. apply Sb, Sb2, Ht.
  - subst s'. exact HI.
  - intros d t. unfold t_produced in *. simpl in *. rewrite flat_map_app, acc_app, HA, Ao, !flat_map_app, (flat_map_empty contents _ Fe), app_nil_r, Ec. auto.
Qed.

Lemma tstep_ok (w w' : tworld) : tinv w -> tstep w w' -> tinv w'.
Proof.
  intros HI HS. destruct HS as [s s' st o HV HN|s s' st st' o msgs F outs Hd Hp Ea].
  - destruct HI as (accd & rest & HF & HH & _ & HA). simpl in *. destruct (fo_env ops contents laws _ _ _ _ _ _ HV HF HH) as (rest' & HF' & HH' & _).
    exists accd, rest'. simpl. auto.
  - destruct (activate_ok _ _ _ _ HI Hd Hp) as (st2 & outs2 & E & HI' & _). simpl in E. rewrite Ea in E. inversion E; subst. exact HI'.
Qed.
Lemma treaches_inv h w : treaches h w -> tinv w.
Proof. induction 1 as [w Hs|w w' _ IH Hs]; [eapply tstarts_inv; eauto|eapply tstep_ok; eauto]. Qed.

Lemma total_ok h w : treaches h w -> forall d t, ~ beyond (sd_front (tw_in w)) t ->
  acc (t_produced w) d t = G d (acc (flat_map contents (sd_hist (tw_in w))) (key_of d, tt) t).
Proof.
  intros HW d t Ht. destruct (treaches_inv _ _ HW) as (accd & rest & [TK _] & _ & _ & HA). rewrite HA. f_equal. symmetry. eapply complete_side; eauto.
Qed.
End World.

(** ** count_total and threshold_total *)
Section Instances.
Context {K T R R2 : Type} {OK : Ord K} {TT : Time T} {DR : Diff R} {OR : Ord R} {D2 : Diff R2}.
Lemma acc_one (d d' : K * R) (t : T) (r : R2) : acc [(d', t, r)] d t = if eqb d' d then r else dzero.
Proof. rewrite acc_cons'. simpl. rewrite tle_refl, andb_true_r, acc_nil, dplus_0_r. auto. Qed.
Lemma count_emits (neg pos : R2) : dplus neg pos = dzero ->
  emits_ok (K:=K) (D:=K*R) (T:=T) (emit_count neg pos) fst (fun d r => if negb (is_zero r) && eqb r (snd d) then pos else dzero).
Proof.
  intros Hnp. constructor.
  - intros k c t r. unfold emit_count. apply Forall_app. split; [destruct c as [c|]; [destruct (is_zero c)|]|destruct (count_plus c r) as [c'|]; [destruct (is_zero c')|]]; repeat constructor.
  - intros k c t r d s Hk. unfold emit_count. rewrite acc_app.
    assert (Z : forall c' w, acc (match c' with Some c => if is_zero c then [] else [((k, c), t, w)] | None => [] end) d s = dzero (R:=R2)).
    { intros c' w. destruct c' as [c'|]; [|reflexivity]. destruct (is_zero c'); [reflexivity|]. rewrite acc_cons'. simpl. destruct (eqb_spec (k, c') d) as [E|E]; [subst; simpl in Hk; congruence|].
      simpl. rewrite dplus_0_l. reflexivity. }
    rewrite !Z, dplus_0_l. auto.
  - intros c t r d. unfold emit_count. rewrite acc_app. destruct d as [k c0]. simpl fst. simpl snd.
    assert (A : forall c' w, acc (match c' with Some c => if is_zero c then [] else [((k, c), t, w)] | None => [] end) (k, c0) t =
        if negb (is_zero (cval c')) && eqb (cval c') c0 then w else dzero (R:=R2)).
    { intros c' w. destruct c' as [c'|]; simpl cval.
      - destruct (is_zero c') eqn:Ez; simpl; [reflexivity|]. rewrite acc_one. destruct (eqb_spec (k, c') (k, c0)) as [E|E], (eqb_spec c' c0) as [E'|E']; auto; [inversion E; congruence|subst; congruence].
      - rewrite (proj2 (is_zero_spec (dzero : R)) eq_refl). reflexivity. }
    rewrite (A c neg), (A (count_plus c r) pos), cval_plus. destruct (negb (is_zero (cval c)) && eqb (cval c) c0).
    + rewrite dplus_assoc, (dplus_comm _ pos), <- dplus_assoc, Hnp, dplus_0_l. auto.
    + rewrite dplus_0_l, dplus_0_r. auto.
  - intros d. rewrite (proj2 (is_zero_spec (dzero : R)) eq_refl). reflexivity.
Qed.
Lemma threshold_emits (thresh : K -> R -> option R -> option R2) (f : K -> R -> R2) : (forall k, f k dzero = dzero) ->
  (forall k new, cval (thresh k new None) = f k new) ->
  (forall k new old, dplus (cval (thresh k new (Some old))) (f k old) = f k new) ->
  emits_ok (K:=K) (D:=K) (T:=T) (emit_threshold thresh) (fun k => k) f.
Proof.
  intros H0 H1 H2.
  assert (A : forall (k k' : K) (t s : T) (x : option R2), acc (match x with Some d => if is_zero d then [] else [(k, t, d)] | None => [] end) k' s =
      if eqb k k' && tle t s then cval x else dzero).
  { intros k k' t s [x|]; simpl; [|destruct (eqb k k' && tle t s); reflexivity]. destruct (is_zero x) eqn:Ez; [apply is_zero_spec in Ez; subst; destruct (eqb k k' && tle t s); reflexivity|].
    rewrite acc_cons'. simpl. rewrite acc_nil, dplus_0_r. auto. }
  constructor; auto.
  - intros k c t r. unfold emit_threshold. destruct (match c with Some old => _ | None => _ end) as [d|]; [destruct (is_zero d)|]; repeat constructor.
  - intros k c t r d s Hk. unfold emit_threshold. rewrite A. destruct (eqb_spec k d); [subst; congruence|]. auto.
  - intros c t r d. unfold emit_threshold. rewrite A, eqb_refl, tle_refl. simpl. destruct c as [c|]; simpl; [apply H2|]. rewrite H1, H0, dplus_0_l, dplus_0_r. auto.
Qed.
End Instances.

(** ** Two operators that agree on differences satisfying [P] *)
Section Agree.
Context {B M C K D T R R2 : Type} {OK : Ord K} {OD : Ord D} {TT : Time T} {TO : TotalTime T} {DR : Diff R} {D2 : Diff R2}.
Variable ops : BatchOps B M T. Variable contents : B -> list (K * unit * T * R). Variable laws : BatchLaws (D:=K*unit) ops contents.
Variable cops : CursorOps B C K unit T R. Variable new : C.
Hypothesis HR : readable ops contents laws cops new.
Variables emit1 emit2 : K -> option R -> T -> R -> list (D * T * R2).
Variable key_of : D -> K. Variable G : D -> R -> R2.
Hypothesis HE : emits_ok emit2 key_of G.
Variable P : R -> Prop.
Hypothesis HP : forall a b, P a -> P b -> P (dplus a b).
Hypothesis HA : forall k c t r, match c with None => True | Some c => P c end -> P r -> emit1 k c t r = emit2 k c t r.

Lemma count_all_only (ts : list (T * R)) : Forall (fun x => P (snd x)) ts -> match count_all ts with None => True | Some c => P c end.
Proof.
  unfold count_all. assert (H : forall c, match c with None => True | Some c => P c end -> Forall (fun x => P (snd x)) ts ->
    match fold_left (fun c td => count_plus c (snd td)) ts c with None => True | Some c => P c end); [|apply (H None); exact I].
  induction ts as [|x ts IH]; intros c Hc HF; auto. cbn [fold_left]. inversion HF; subst. apply IH; auto. destruct c; cbn [count_plus]; auto.
Qed.
Lemma emit_all_agree k ts : Forall (fun x => P (snd x)) ts -> forall c, match c with None => True | Some c => P c end -> emit_all emit1 k c ts = emit_all emit2 k c ts.
Proof.
  induction 1 as [|[t r] ts Hx _ IH]; intros c Hc; auto. cbn [emit_all]. rewrite (HA k c t r Hc Hx), IH; auto. destruct c; cbn [count_plus]; auto.
Qed.
Lemma hist_only bs k : Forall (fun b => Forall (fun u => P (snd u)) (contents b)) bs -> Forall (fun x => P (snd x)) (hist (flat_map contents bs) k).
Proof.
  intros H. apply Forall_forall. intros x Hx. apply in_hist in Hx. apply in_flat_map in Hx as (b & Hb & Hx). rewrite Forall_forall in H. specialize (H b Hb).
  rewrite Forall_forall in H. apply (H _ Hx).
Qed.
Lemma total_keys_agree bs tbs bc tc : Forall (bl_ok _ _ laws) bs -> Forall (bl_ok _ _ laws) tbs -> cursor_list cops new bs = Some bc -> cursor_list cops new tbs = Some tc ->
  Forall (fun b => Forall (fun u => P (snd u)) (contents b)) bs -> Forall (fun b => Forall (fun u => P (snd u)) (contents b)) tbs ->
  total_keys cops emit1 (sum_len (b_len ops) bs) bs tbs bc tc = total_keys cops emit2 (sum_len (b_len ops) bs) bs tbs bc tc.
Proof.
  intros HB HT Eb Et PB PT. destruct (cursor_list_no_seek ops contents laws cops new HR bs HB) as (bc' & Eb' & Pb). destruct (cursor_list_no_seek ops contents laws cops new HR tbs HT) as (tc' & Et' & Pt).
  rewrite Eb in Eb'. rewrite Et in Et'. injection Eb' as <-. injection Et' as <-.
  pose proof (sum_len_contents ops contents laws bs HB) as EL. destruct (union_length contents bs) as [UL _].
  assert (Q : forall emit : K -> option R -> T -> R -> list (D * T * R2), total_keys cops emit (sum_len (b_len ops) bs) bs tbs bc tc = Some (flat_map (key_out contents emit bs tbs) (map fst (skipn 0 (union_trie (tries contents bs)))))).
  { intros emit. eapply (total_keys_ok ops contents laws cops new HR emit bs tbs HB HT _ 0 0 0); [rewrite EL; lia|apply shows_start; exact Pb|apply shows_start; exact Pt|intros; lia]. }
  rewrite !Q. f_equal. apply flat_map_ext. intros k. unfold key_out. apply emit_all_agree; [apply hist_only; auto|apply count_all_only, hist_only; auto].
Qed.
Lemma through_pending_incl upper pend r : through_pending ops upper pend = Some r -> incl r pend.
Proof.
  revert r; induction pend as [|b pend IH]; intros r H; cbn [through_pending] in H; [injection H as <-; intros x []|].
  destruct (nonempty ops b); [|intros x Hx; right; eapply IH; eauto]. destruct (negb _ && negb _); [discriminate|].
  destruct (through_pending ops upper pend) as [l|]; [|discriminate]. injection H as <-. destruct (ac_le _ upper); [intros x [<-|Hx]; [left; auto|]|intros x Hx]; right; apply (IH l eq_refl); auto.
Qed.
Lemma through_only (s : Spine B M T) upper tbs : batches_through ops s upper = Some tbs -> incl tbs (map_batches s).
Proof.
  unfold batches_through, map_batches. destruct (ac_less_equal upper tmin); [intros E; injection E as <-; intros x []|]. destruct (logical s); [discriminate|]. destruct (ac_le _ _); [|discriminate].
  destruct (through_pending ops upper (pending s)) as [r|] eqn:Er; [|discriminate]. intros E. injection E as <-. apply through_pending_incl in Er.
  intros x Hx. apply in_app_or in Hx as [Hx|Hx]; apply in_or_app; [left; apply filter_In in Hx; tauto|right; auto].
Qed.
Lemma activate_agree (w : tworld B M T (D * T * R2)) msgs F s' : tinv ops contents laws key_of G w -> delivers contents (tw_in w) msgs F s' -> prompt ops contents msgs s' -> only contents P (tw_in w) ->
  t_activate ops cops new emit1 (sd_spine (tw_in w)) msgs (tw_op w) = t_activate ops cops new emit2 (sd_spine (tw_in w)) msgs (tw_op w).
Proof.
  intros (accd & rest & HF & HH & HI & _) (q & Eq & Es & Hm & Hf & Hq) [Hp Hne] HO. unfold only in HO. apply Forall_app in HO as [HO1 HO2]. rewrite Eq in HO1. apply Forall_app in HO1 as [HO1 _].
  destruct (fo_recv_all ops contents laws (flat_map snd msgs) (tw_in w) _ accd rest q HF Eq) as (bs' & rest1 & Er & Pbs & Ec & Sb & Nb & _ & HF1).
  set (bs := flat_map snd msgs) in *. unfold t_activate. fold bs. destruct msgs as [|[cap ms] msgs]; auto. cbv zeta.
  assert (Hbs : bs <> []) by (inversion Hp as [|? ? [Hms Hcap] Hp']; subst; simpl in Hms; unfold bs; simpl; destruct ms; [congruence|discriminate]).
  destruct (ts_handle (tw_op w)) as [HL HPh] eqn:Eh. pose proof (fo_held _ _ (HL, HPh) HH (Nb Hbs)) as Hheld.
  destruct (tk_read ops contents laws _ _ _ _ _ HL HPh (fo_tracks _ _ _ _ _ _ _ HF) Hheld) as (tbs & Etb & Otb & Stb). rewrite Etb.
  assert (Obs : Forall (bl_ok _ _ laws) bs) by (eapply Forall_impl; [|exact Pbs]; intros b Hb; apply Hb).
  destruct (cursor_list cops new bs) as [bc|] eqn:Ebc; auto. destruct (cursor_list cops new tbs) as [tc|] eqn:Etc; auto.
  rewrite (total_keys_agree bs tbs bc tc Obs Otb Ebc Etc HO1); auto.
  apply Forall_forall. intros b Hb. rewrite Forall_forall in HO2. apply HO2. apply (through_only _ _ _ Etb). auto.
Qed.
Lemma treaches_agree h w : treaches_only ops contents laws cops new emit1 P h w -> treaches ops contents laws cops new emit2 h w /\ only contents P (tw_in w).
Proof.
  induction 1 as [w Hs HO|w w' _ [IH HO] Hs HO']; [split; auto; apply tr_start; auto|]. split; auto. eapply tr_step; [exact IH|].
  pose proof (treaches_inv ops contents laws cops new emit2 key_of G HR HE h w IH) as HI.
  destruct Hs as [s s' st o HV HN|s s' st st' o msgs F outs Hd Hpr Ea]; [apply tw_env; auto|]. eapply tw_activate; eauto.
  rewrite <- Ea. symmetry. apply (activate_agree _ msgs F s' HI Hd Hpr HO).
Qed.
End Agree.
