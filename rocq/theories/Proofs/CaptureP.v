From Verif Require Export Spec.CaptureSpec Proofs.LatticeP Proofs.DescriptionP Proofs.ConsolidationP.
From Verif Require Import Base.Collections.

Lemma NoDup_map_filter {A B} (f : A -> B) g l : NoDup (map f l) -> NoDup (map f (filter g l)).
Proof.
  induction l as [|a l IH]; intros H; auto. cbn [map filter] in *. inversion H as [|? ? Hn H']; subst. destruct (g a); auto.
  cbn [map]. constructor; auto. intros Hx. apply Hn. apply in_map_iff in Hx as (y & E & Hy). apply filter_In in Hy as [Hy _]. rewrite <- E. apply in_map. auto.
Qed.
Lemma NoDup_app_intro {A} (a b : list A) : NoDup a -> NoDup b -> (forall x, In x a -> In x b -> False) -> NoDup (a ++ b).
Proof.
  induction 1 as [|x a Hx Ha IH]; intros Hb HF; auto. cbn [app]. constructor.
  - intros Hi. apply in_app_or in Hi as [Hi|Hi]; [auto|apply (HF x); [left; auto|auto]].
  - apply IH; auto. intros y H1 H2. apply (HF y); [right; auto|auto].
Qed.
Lemma NoDup_app_r {A} (a b : list A) : NoDup (a ++ b) -> NoDup b.
Proof. induction a as [|x a IH]; intros H; auto. inversion H; auto. Qed.
Lemma filter_length_le {A} (f : A -> bool) l : length (filter f l) <= length l.
Proof. induction l as [|x l IH]; auto. cbn [filter length]. destruct (f x); cbn [length]; lia. Qed.

Section Iter.
Context {D T R : Type} {OD : Ord D} {TT : Time T} {OR : Ord R}.
Notation update := (D * T * R)%type.
Variable all : list update.
Hypothesis Hall : NoDup all.

Lemma contains_spec (s : list update) u : contains s u = true <-> In u s.
Proof.
  unfold contains. rewrite existsb_exists. split.
  - intros (x & Hx & E). destruct (eqb_spec u x) as [->|]; [auto|discriminate].
  - intros H. exists u. split; auto. apply eqb_refl.
Qed.
Lemma set_extend_fresh (us : list update) : forall s, NoDup us -> (forall u, In u us -> ~ In u s) -> set_extend s us = s ++ us.
Proof.
  induction us as [|u us IH]; intros s HN HF; cbn [set_extend fold_left]; [rewrite app_nil_r; auto|].
  inversion HN as [|? ? Hni HN']; subst. destruct (contains s u) eqn:Ec; [apply contains_spec in Ec; destruct (HF u (or_introl eq_refl) Ec)|].
  change (fold_left (fun s u => if contains s u then s else s ++ [u]) us (s ++ [u])) with (set_extend (s ++ [u]) us). rewrite IH; auto.
  - rewrite <- app_assoc. auto.
  - intros x Hx Hi. apply in_app_or in Hi as [Hi|[<-|[]]]; [apply (HF x); [right; auto|auto]|contradiction].
Qed.

(** ** Counts *)
Lemma count_app (a b : list update) t : count_at (a ++ b) t = count_at a t + count_at b t.
Proof. unfold count_at. rewrite filter_app, app_length. auto. Qed.
Lemma count_perm (a b : list update) t : Permutation a b -> count_at a t = count_at b t.
Proof. intros H. unfold count_at. apply Permutation_length. apply Permutation_filter. auto. Qed.
Lemma weight_minus (us : list update) t : weight (map (fun u => (snd (fst u), (-1)%Z)) us) t = (- Z.of_nat (count_at us t))%Z.
Proof.
  induction us as [|u us IH]; auto. cbn [map]. rewrite weight_cons', IH. unfold count_at. cbn [filter fst snd].
  destruct (eqb (snd (fst u)) t); cbn [length]; cbn [dplus dzero Diff_Z]; lia.
Qed.
Lemma weight_plus (us : list update) t : weight (map (fun u => (snd (fst u), 1%Z)) us) t = Z.of_nat (count_at us t).
Proof.
  induction us as [|u us IH]; auto. cbn [map]. rewrite weight_cons', IH. unfold count_at. cbn [filter fst snd].
  destruct (eqb (snd (fst u)) t); cbn [length]; cbn [dplus dzero Diff_Z]; lia.
Qed.
Lemma weight_counts (cs : list (T * nat)) t : NoDup (map fst cs) ->
  (forall c, In (t, c) cs -> weight (map (fun x => (fst x, Z.of_nat (snd x))) cs) t = Z.of_nat c) /\
  ((forall c, ~ In (t, c) cs) -> weight (map (fun x => (fst x, Z.of_nat (snd x))) cs) t = 0%Z).
Proof.
  induction cs as [|[t0 c0] cs IH]; intros HN; [split; [intros c []|auto]|]. cbn [map fst] in HN. inversion HN as [|? ? Hni HN']; subst.
  destruct (IH HN') as [I1 I2]. cbn [map fst snd]. rewrite weight_cons'. cbn [fst snd]. split.
  - intros c [E|Hi].
    + inversion E; subst. rewrite eqb_refl. rewrite I2; [simpl; lia|]. intros c' Hc. apply Hni. apply (in_map fst) in Hc. auto.
    + rewrite (I1 c Hi). destruct (eqb_spec t0 t) as [->|]; [destruct Hni; apply (in_map fst) in Hi; auto|]. simpl; lia.
  - intros HF. rewrite I2 by (intros c Hc; apply (HF c); right; auto). destruct (eqb_spec t0 t) as [->|]; [destruct (HF c0); left; auto|]. auto.
Qed.
Lemma sub_count (s : list update) t : NoDup s -> incl s all -> count_at s t <= count_at all t.
Proof.
  intros HN HI. unfold count_at. apply NoDup_incl_length; [apply NoDup_filter; auto|]. intros u Hu. apply filter_In in Hu as [H1 H2]. apply filter_In. auto.
Qed.
Lemma full_count (s : list update) t : NoDup s -> incl s all -> count_at all t <= count_at s t -> forall u, In u all -> snd (fst u) = t -> In u s.
Proof.
  intros HN HI HC u Hu Ht. unfold count_at in HC.
  assert (Hin : incl (filter (fun u => eqb (snd (fst u)) t) all) (filter (fun u => eqb (snd (fst u)) t) s)).
  { apply NoDup_length_incl; [apply NoDup_filter; auto|exact HC|]. intros x Hx. apply filter_In in Hx as [H1 H2]. apply filter_In. auto. }
  assert (Hx : In u (filter (fun u => eqb (snd (fst u)) t) s)) by (apply Hin; apply filter_In; split; auto; rewrite Ht; apply eqb_refl).
  apply filter_In in Hx as [Hx _]. auto.
Qed.

Lemma ma_frontier_beyond (m : ma_counts T) t : beyond (ma_frontier m) t <-> exists t', tle t' t = true /\ (0 < weight m t')%Z.
Proof.
  unfold ma_frontier. rewrite ac_from_beyond. split.
  - intros (f & Hf & Hle). apply in_map_iff in Hf as ([f' c] & <- & Hx). apply filter_In in Hx as [Hx Hc]. cbn [fst snd] in *. exists f'. split; auto.
    pose proof (consolidated_weight _ (consolidate_consolidated m) _ Hx) as Hw. cbn [fst snd] in Hw. rewrite (consolidate_weight m) in Hw.
    apply Z.ltb_lt in Hc. cbn [fst]. rewrite Hw. auto.
  - intros (t' & Hle & Hw). exists t'. split; auto. assert (Hi : In t' (map fst (consolidate m))).
    { apply (consolidated_in_weight _ t' (consolidate_consolidated m)). rewrite (consolidate_weight m). cbn [dzero Diff_Z]. lia. }
    apply in_map_iff in Hi as ([f c] & <- & Hx). apply in_map_iff. exists (f, c). split; auto. apply filter_In. split; auto. cbn [fst snd] in *.
    pose proof (consolidated_weight _ (consolidate_consolidated m) _ Hx) as Hw'. cbn [fst snd] in Hw'. rewrite (consolidate_weight m) in Hw'. apply Z.ltb_lt. rewrite <- Hw'. auto.
Qed.

(** ** The invariant.  [seen]: the distinct updates accepted; [out]: those published; [ps]: the statements received. *)
Record iter_inv (seen out : list update) (ps : list (Progress T)) (s : Iter D T R) : Prop := {
  ii_nodup : NoDup seen;
  ii_incl : incl seen all;
  ii_split : Permutation seen (out ++ it_updates s);
  ii_counts : forall t, weight (it_messages s) t = ((if ac_less_equal (it_progress s) t then 0 else Z.of_nat (count_at all t)) - Z.of_nat (count_at seen t))%Z;
  ii_out : Forall (fun u => ~ beyond (it_reported s) (snd (fst u))) out;
  ii_held : Forall (fun u => beyond (it_reported s) (snd (fst u))) (it_updates s);
  ii_done : forall u, In u all -> ~ beyond (it_reported s) (snd (fst u)) -> In u seen;
  ii_queue : Forall (truthful all) (it_queue s);
  ii_ps : forall p, In p ps -> In p (it_queue s) \/ forall t, beyond (it_progress s) t -> beyond (p_upper p) t;
  ii_ac : antichain (it_progress s) /\ antichain (it_reported s)
}.

Definition drained (s : Iter D T R) := forall p, In p (it_queue s) -> ac_le (p_lower p) (it_progress s) = false.

Lemma inv_new : iter_inv [] [] [] iter_new.
Proof.
  constructor; cbn [iter_new it_updates it_reported it_progress it_messages it_queue].
  - constructor.
  - intros x [].
  - constructor.
  - intros t. assert (Hm : ac_less_equal [tmin] t = true) by (apply ac_less_equal_spec; exists tmin; split; [left; auto|apply tmin_le]). rewrite Hm. reflexivity.
  - constructor.
  - constructor.
  - intros u Hu Hb. destruct Hb. exists tmin. split; [left; auto|apply tmin_le].
  - constructor.
  - intros p [].
  - split; apply (ac_from_antichain [tmin]).
Qed.

Definition fresh (s : Iter D T R) (us : list update) :=
  filter (fun u => ac_less_equal (it_reported s) (snd (fst u)) && negb (contains (it_updates s) u)) us.
Lemma inv_updates seen out ps s us : iter_inv seen out ps s -> incl us all -> NoDup us ->
  iter_inv (seen ++ fresh s us) out ps (iter_receive s (Updates us)) /\ incl (filter (fun u => ac_less_equal (it_reported s) (snd (fst u))) us) (seen ++ fresh s us).
Proof.
  intros I Hin HN. unfold iter_receive. fold (fresh s us). assert (HNf : NoDup (fresh s us)) by (apply NoDup_filter; auto).
  assert (Hf : forall u, In u (fresh s us) -> In u us /\ beyond (it_reported s) (snd (fst u)) /\ ~ In u (it_updates s)).
  { intros u Hu. apply filter_In in Hu as [Hu Hc]. apply andb_true_iff in Hc as [H1 H2]. apply ac_less_equal_spec in H1. split; [auto|split; [auto|]].
    intros Hx. apply contains_spec in Hx. rewrite Hx in H2. discriminate. }
  assert (Hns : forall u, In u (fresh s us) -> ~ In u seen).
  { intros u Hu Hs. destruct (Hf u Hu) as (_ & Hb & Hni). apply (Permutation_in _ (ii_split _ _ _ _ I)) in Hs. apply in_app_or in Hs as [Hs|Hs]; [|auto].
    apply (proj1 (Forall_forall _ _) (ii_out _ _ _ _ I)) in Hs. auto. }
  rewrite set_extend_fresh; [|auto|intros u Hu; apply (Hf u Hu)]. split; [destruct I; constructor; cbn [it_updates it_reported it_progress it_messages it_queue]; auto|].
  - apply NoDup_app_intro; auto. intros x H1 H2. apply (Hns x H2 H1).
  - apply incl_app; auto. intros u Hu. apply Hin. apply (Hf u Hu).
  - rewrite app_assoc. apply Permutation_app_tail. auto.
  - intros t. unfold ma_update_iter. rewrite weight_app, ii_counts0, weight_minus, count_app. cbn [dplus Diff_Z]. lia.
  - apply Forall_app. split; auto. apply Forall_forall. intros u Hu. apply (Hf u Hu).
  - intros u Hu Hb. apply in_or_app. left. auto.
  - intros u Hu. apply filter_In in Hu as [Hu Hb]. destruct (contains (it_updates s) u) eqn:Ec.
    + apply in_or_app. left. apply (Permutation_in _ (Permutation_sym (ii_split _ _ _ _ I))). apply in_or_app. right. apply contains_spec. auto.
    + apply in_or_app. right. apply filter_In. rewrite Hb, Ec. auto.
Qed.
Lemma inv_statement seen out ps s p : iter_inv seen out ps s -> truthful all p -> iter_inv seen out (ps ++ [p]) (iter_receive s (Statement p)).
Proof.
  intros I Hp. destruct I. constructor; cbn [iter_receive it_updates it_reported it_progress it_messages it_queue]; auto.
  - apply Forall_app. auto.
  - intros q Hq. apply in_app_or in Hq as [Hq|Hq]; [destruct (ii_ps0 q Hq) as [H|H]; [left; apply in_or_app; auto|right; auto]|left; apply in_or_app; auto].
Qed.

Lemma take_first_some {A} (f : A -> bool) l x r : take_first f l = Some (x, r) -> f x = true /\ Permutation l (x :: r).
Proof.
  revert x r; induction l as [|y l IH]; intros x r H; [discriminate|]. cbn [take_first] in H. destruct (f y) eqn:Ef; [inversion H; subst; auto|].
  destruct (take_first f l) as [[z r']|]; [|discriminate]. inversion H; subst. destruct (IH _ _ eq_refl) as [H1 H2]. split; auto.
  rewrite H2. apply perm_swap.
Qed.
Lemma take_first_none {A} (f : A -> bool) l : take_first f l = None -> forall x, In x l -> f x = false.
Proof.
  induction l as [|y l IH]; intros H x Hx; [destruct Hx|]. cbn [take_first] in H. destruct (f y) eqn:Ef; [discriminate|].
  destruct (take_first f l) as [[z r']|]; [discriminate|]. destruct Hx as [<-|Hx]; auto.
Qed.

Lemma inv_act seen out ps s p queue : iter_inv seen out ps s -> Permutation (it_queue s) (p :: queue) -> ac_le (p_lower p) (it_progress s) = true ->
  iter_inv seen out ps (iter_act s p queue).
Proof.
  intros I HP Hle. pose proof (proj1 (ac_le_spec _ _) Hle) as Hlow. destruct I.
  assert (HT : truthful all p) by (apply (proj1 (Forall_forall _ _) ii_queue0); apply (Permutation_in _ (Permutation_sym HP)); left; auto).
  unfold iter_act. set (nf := fold_left _ (p_upper p) []).
  assert (Hnf : forall t, beyond nf t <-> beyond (p_upper p) t /\ beyond (it_progress s) t) by (intros t; apply (antichain_join_beyond (p_upper p) (it_progress s) t)).
  constructor; cbn [it_updates it_reported it_progress it_messages it_queue]; auto.
  - intros t. unfold ma_update_iter. rewrite weight_app, ii_counts0. set (cs := filter _ (p_counts p)).
    assert (HNc : NoDup (map fst cs)) by (apply NoDup_map_filter; apply HT).
    destruct (weight_counts cs t HNc) as [W1 W2]. destruct HT as [_ HT].
    assert (Hcs : forall c, In (t, c) cs <-> beyond (it_progress s) t /\ ~ beyond (p_upper p) t /\ c = count_at all t /\ 0 < c).
    { intros c. unfold cs. rewrite filter_In, HT. cbn [fst]. rewrite ac_less_equal_spec. split; [tauto|]. intros (H1 & H2). split; auto. }
    destruct (ac_less_equal (it_progress s) t) eqn:Eb; destruct (ac_less_equal nf t) eqn:En.
    + apply ac_less_equal_spec, Hnf in En. rewrite W2; [cbn [dplus Diff_Z]; lia|]. intros c Hc. apply Hcs in Hc. tauto.
    + apply ac_less_equal_false in En. apply ac_less_equal_spec in Eb. rewrite Hnf in En. destruct (Nat.eq_dec (count_at all t) 0) as [E0|E0].
      * rewrite W2; [cbn [dplus Diff_Z]; lia|]. intros c Hc. apply Hcs in Hc. lia.
      * rewrite (W1 (count_at all t)); [cbn [dplus Diff_Z]; lia|]. apply Hcs. split; [auto|split; [tauto|split; [auto|lia]]].
    + apply ac_less_equal_spec, Hnf in En. apply ac_less_equal_false in Eb. tauto.
    + rewrite W2; [cbn [dplus Diff_Z]; lia|]. intros c Hc. apply Hcs in Hc. apply ac_less_equal_false in Eb. tauto.
  - apply Forall_forall. intros q Hq. apply filter_In in Hq as [Hq _]. apply (proj1 (Forall_forall _ _) ii_queue0). apply (Permutation_in _ (Permutation_sym HP)). right; auto.
  - intros q Hq. destruct (ii_ps0 q Hq) as [H|H]; [|right; intros t Ht; apply Hnf in Ht; apply H; tauto].
    apply (Permutation_in _ HP) in H as [<-|H]; [right; intros t Ht; apply Hnf in Ht; tauto|].
    destruct (ac_le (p_upper q) nf) eqn:Eq; [right; apply ac_le_spec; auto|left; apply filter_In; rewrite Eq; auto].
  - split; [|apply ii_ac0]. apply (antichain_join_antichain (p_upper p) (it_progress s)).
Qed.
Lemma inv_drain seen out ps fuel : forall s, iter_inv seen out ps s -> length (it_queue s) <= fuel ->
  iter_inv seen out ps (iter_drain fuel s) /\ drained (iter_drain fuel s) /\ it_reported (iter_drain fuel s) = it_reported s /\
  (forall t, beyond (it_progress (iter_drain fuel s)) t -> beyond (it_progress s) t).
Proof.
  induction fuel as [|fuel IH]; intros s I Hf; cbn [iter_drain]; destruct (take_first _ (it_queue s)) as [[p queue]|] eqn:Et.
  - apply take_first_some in Et as [_ Et]. apply Permutation_length in Et. simpl in Et. lia.
  - split; [auto|split; [|auto]]. intros p Hp. apply (take_first_none _ _ Et p Hp).
  - apply take_first_some in Et as [Hle Et]. pose proof (Permutation_length Et) as HL. simpl in HL.
    destruct (IH (iter_act s p queue)) as (I' & D' & R' & P').
    + apply (inv_act _ _ ps _ _ _ I Et Hle).
    + cbn [iter_act it_queue]. etransitivity; [apply filter_length_le|lia].
    + split; [auto|split; [auto|split; [rewrite R'; reflexivity|]]]. intros t Ht. apply P' in Ht.
      unfold iter_act in Ht. cbn [it_progress] in Ht. apply (antichain_join_beyond (p_upper p) (it_progress s) t) in Ht. tauto.
  - split; [auto|split; [|auto]]. intros p Hp. apply (take_first_none _ _ Et p Hp).
Qed.

Definition bound (s : Iter D T R) : list T := ac_extend (it_progress s) (ma_frontier (it_messages s)).
Lemma inv_report seen out ps s : iter_inv seen out ps s -> (forall t, beyond (it_progress s) t -> beyond (it_reported s) t) -> drained s ->
  match iter_report s with
  | (s', None) => s' = s /\ same_future (it_reported s) (bound s)
  | (s', Some (us, G)) => iter_inv seen (out ++ us) ps s' /\ it_reported s' = G /\ same_future G (bound s') /\ drained s' /\
      (forall t, beyond (it_progress s') t -> beyond (it_reported s') t) /\
      (forall t, beyond G t -> beyond (it_reported s) t) /\ ~ same_future (it_reported s) G /\ NoDup us /\
      (forall u, In u us <-> In u all /\ beyond (it_reported s) (snd (fst u)) /\ ~ beyond G (snd (fst u)))
  end.
Proof.
  intros I Hpr Hd. unfold iter_report. fold (bound s). pose proof I as I'. destruct I'.
  assert (Hb : forall t, beyond (bound s) t <-> beyond (it_progress s) t \/ exists t', tle t' t = true /\ (0 < weight (it_messages s) t')%Z).
  { intros t. unfold bound. rewrite ac_extend_beyond, ma_frontier_beyond. tauto. }
  assert (Hac : antichain (bound s)) by (apply ac_extend_antichain; apply ii_ac0).
  destruct (ac_eqb (bound s) (it_reported s)) eqn:Ee; cbn [negb].
  - split; auto. apply ac_eqb_spec in Ee; [|auto|apply ii_ac0]. intros t. rewrite (Ee t). tauto.
  - assert (Hdone : forall u, In u all -> ~ beyond (bound s) (snd (fst u)) -> In u seen).
    { intros u Hu Hn. rewrite Hb in Hn. apply (full_count seen (snd (fst u))); auto.
      destruct (Z.lt_ge_cases 0 (weight (it_messages s) (snd (fst u)))) as [Hw|Hw]; [destruct Hn; right; exists (snd (fst u)); split; [apply tle_refl|auto]|].
      rewrite ii_counts0 in Hw. destruct (ac_less_equal (it_progress s) (snd (fst u))) eqn:Ep; [destruct Hn; left; apply ac_less_equal_spec; auto|]. lia. }
    assert (Hadv : forall t, beyond (bound s) t -> beyond (it_reported s) t).
    { intros t Ht. apply Hb in Ht as [Ht|(t' & Hle & Hw)]; auto. apply (beyond_mono _ t'); auto. rewrite ii_counts0 in Hw.
      destruct (beyond_dec (it_reported s) t') as [H|Hn]; auto. destruct (ac_less_equal (it_progress s) t') eqn:Ep; [lia|].
      assert (Hc : count_at all t' <= count_at seen t'); [|lia]. unfold count_at. apply NoDup_incl_length; [apply NoDup_filter; auto|].
      intros u Hu. apply filter_In in Hu as [Hu Et]. apply filter_In. split; auto. destruct (eqb_spec (snd (fst u)) t') as [E|]; [|discriminate]. apply ii_done0; auto. rewrite E. auto. }
    assert (Hsp : Permutation (it_updates s) (filter (fun u => negb (ac_less_equal (bound s) (snd (fst u)))) (it_updates s) ++ filter (fun u => ac_less_equal (bound s) (snd (fst u))) (it_updates s))).
    { clear. induction (it_updates s) as [|u l IH]; auto. cbn [filter]. destruct (ac_less_equal (bound s) (snd (fst u))); cbn [negb].
      - rewrite IH at 1. apply Permutation_middle.
      - cbn [app]. constructor. auto. }
    set (us := filter (fun u => negb (ac_less_equal (bound s) (snd (fst u)))) (it_updates s)) in *.
    set (keep := filter (fun u => ac_less_equal (bound s) (snd (fst u))) (it_updates s)) in *.
    assert (Hus : forall u, In u us <-> In u (it_updates s) /\ ~ beyond (bound s) (snd (fst u))).
    { intros u. unfold us. rewrite filter_In, negb_true_iff, ac_less_equal_false. tauto. }
    split; [|split; [auto|split; [intros t; reflexivity|split; [exact Hd|split; [|split; [auto|split; [|split]]]]]]].
    + constructor; cbn [it_updates it_reported it_progress it_messages it_queue]; auto.
      * etransitivity; [exact ii_split0|]. rewrite <- app_assoc. apply Permutation_app_head. exact Hsp.
      * apply Forall_app. split.
        -- eapply Forall_impl; [|exact ii_out0]. intros u Hu Hx. apply Hu. auto.
        -- apply Forall_forall. intros u Hu. apply Hus in Hu. tauto.
      * apply Forall_forall. intros u Hu. apply filter_In in Hu as [_ Hu]. apply ac_less_equal_spec. auto.
      * split; [apply ii_ac0|auto].
    + cbn [it_progress it_reported]. intros t Ht. apply Hb. auto.
    + intros Hs. assert (Hx : ac_eqb (bound s) (it_reported s) = true); [|congruence]. apply ac_eqb_spec; [auto|apply ii_ac0|]. intros t. rewrite (Hs t). tauto.
    + apply NoDup_filter. apply (NoDup_app_r out). apply (Permutation_NoDup ii_split0). auto.
    + intros u. rewrite Hus. split.
      * intros [H1 H2]. split; [|split; [apply (proj1 (Forall_forall _ _) ii_held0); auto|auto]]. apply ii_incl0. apply (Permutation_in _ (Permutation_sym ii_split0)). apply in_or_app; auto.
      * intros (H1 & H2 & H3). split; auto. pose proof (Hdone u H1 H3) as H4. apply (Permutation_in _ ii_split0) in H4. apply in_app_or in H4 as [H4|H4]; auto.
        destruct (proj1 (Forall_forall _ _) ii_out0 u H4). auto.
Qed.

(** ** Runs *)
Definition statements (ms : list (message D T R)) : list (Progress T) := flat_map (fun m => match m with Statement p => [p] | Updates _ => [] end) ms.
Definition delivered_in (ms : list (message D T R)) (u : update) : Prop := exists us, In (Updates us) ms /\ In u us.
(** everything between messages *)
Record iter_ok (seen out : list update) (before : list (message D T R)) (s : Iter D T R) : Prop := {
  io_inv : iter_inv seen out (statements before) s;
  io_drained : drained s;
  io_bound : same_future (it_reported s) (bound s);
  io_del : forall u, delivered_in before u -> In u seen
}.
Lemma ok_new : iter_ok [] [] [] iter_new.
Proof.
  constructor.
  - apply inv_new.
  - intros p [].
  - intros t. unfold bound. rewrite ac_extend_beyond, ma_frontier_beyond. cbn [iter_new it_reported it_progress it_messages]. split; [auto|]. intros [H|(t' & _ & H)]; auto. cbn in H. lia.
  - intros u (us & [] & _).
Qed.
Lemma ok_message seen out before s m : iter_ok seen out before s -> message_about all m ->
  exists seen' , match iter_message s m with
  | (s', None) => iter_ok seen' out (before ++ [m]) s' /\ same_future (it_reported s) (it_reported s')
  | (s', Some (us, G)) => iter_ok seen' (out ++ us) (before ++ [m]) s' /\ it_reported s' = G /\
      (forall t, beyond G t -> beyond (it_reported s) t) /\ ~ same_future (it_reported s) G /\ NoDup us /\
      (forall u, In u us <-> In u all /\ beyond (it_reported s) (snd (fst u)) /\ ~ beyond G (snd (fst u)))
  end.
Proof.
  intros K Hm.
  assert (Hr : exists seen', iter_inv seen' out (statements (before ++ [m])) (iter_receive s m) /\ (forall u, delivered_in (before ++ [m]) u -> In u seen')).
  { assert (Hb : forall u us, delivered_in (before ++ [m]) u -> m = Updates us \/ (exists p, m = Statement p) -> delivered_in before u \/ (m = Updates us /\ In u us)).
    { intros u us (us' & Hi & Hu) Hmm. apply in_app_or in Hi as [Hi|[Hi|[]]]; [left; exists us'; auto|]. subst m. destruct Hmm as [E|[p E]]; [inversion E; subst; right; auto|discriminate]. }
    destruct m as [us|p].
    - destruct Hm as [H1 H2]. destruct (inv_updates _ _ _ _ us (io_inv _ _ _ _ K) H1 H2) as [I' Hin]. exists (seen ++ fresh s us). split.
      + unfold statements. rewrite flat_map_app. cbn [flat_map app]. rewrite app_nil_r. exact I'.
      + intros u Hu. destruct (Hb u us Hu) as [Hu'|[_ Hu']]; [auto|apply in_or_app; left; apply (io_del _ _ _ _ K); auto|].
        destruct (beyond_dec (it_reported s) (snd (fst u))) as [Hy|Hn]; [apply Hin, filter_In; split; [auto|apply ac_less_equal_spec; auto]|].
        apply in_or_app. left. apply (ii_done _ _ _ _ (io_inv _ _ _ _ K)); auto.
    - exists seen. split.
      + unfold statements. rewrite flat_map_app. cbn [flat_map app]. apply inv_statement; [apply (io_inv _ _ _ _ K)|auto].
      + intros u Hu. destruct (Hb u [] Hu) as [Hu'|[E _]]; [right; exists p; auto|apply (io_del _ _ _ _ K); auto|discriminate]. }
  destruct Hr as (seen' & I1 & Hdel). exists seen'. unfold iter_message.
  assert (Hrep : it_reported (iter_receive s m) = it_reported s) by (destruct m; auto).
  assert (Hprog : it_progress (iter_receive s m) = it_progress s) by (destruct m; auto).
  destruct (inv_drain _ _ _ (length (it_queue (iter_receive s m))) _ I1 (Nat.le_refl _)) as (I2 & D2 & R2 & P2).
  set (s2 := iter_drain _ _) in *. rewrite Hrep in R2. rewrite Hprog in P2.
  assert (HP : forall t, beyond (it_progress s2) t -> beyond (it_reported s2) t).
  { intros t Ht. rewrite R2. apply (io_bound _ _ _ _ K). unfold bound. apply ac_extend_beyond. left. auto. }
  pose proof (inv_report _ _ _ _ I2 HP D2) as HR. destruct (iter_report s2) as [s3 [[us G]|]].
  - destruct HR as (I3 & RG & SF & D3 & P3 & A3 & N3 & U3 & X3). rewrite R2 in *. split; [constructor; auto|auto]. rewrite RG. auto.
  - destruct HR as [-> SF]. split; [constructor; auto|]. intros t. rewrite R2. tauto.
Qed.

Lemma reports_same outs F F' : same_future F F' -> reports all F outs -> reports all F' outs.
Proof.
  intros H. destruct outs as [|[us G] outs]; auto. cbn [reports]. intros (H1 & H2 & H3 & H4 & H5). split; [intros t Ht; apply H; auto|split; [|split; [auto|split; [|auto]]]].
  - intros HS. apply H2. intros t. rewrite (H t). apply HS.
  - intros u. rewrite H4, (H (snd (fst u))). tauto.
Qed.
Lemma last_cons {A} (d x : A) l : last (x :: l) d = last l x.
Proof. revert d x; induction l as [|y l IH]; intros d x; auto. change (last (x :: y :: l) d) with (last (y :: l) d). rewrite !IH. auto. Qed.
Lemma ok_all ms : forall seen out before s, iter_ok seen out before s -> Forall (message_about all) ms ->
  exists seen', iter_ok seen' (out ++ concat (map fst (snd (iter_all s ms)))) (before ++ ms) (fst (iter_all s ms)) /\
  reports all (it_reported s) (snd (iter_all s ms)) /\
  same_future (last (map snd (snd (iter_all s ms))) (it_reported s)) (it_reported (fst (iter_all s ms))).
Proof.
  induction ms as [|m ms IH]; intros seen out before s K HF; cbn [iter_all].
  - exists seen. cbn [fst snd map concat]. rewrite !app_nil_r. split; [auto|split; [constructor|intros t; reflexivity]].
  - inversion HF as [|? ? Hm HF']; subst. destruct (ok_message _ _ _ _ m K Hm) as (seen' & H). destruct (iter_message s m) as [s' [[us G]|]].
    + destruct H as (K' & RG & A1 & A2 & A3 & A4). destruct (IH _ _ _ _ K' HF') as (seen2 & K2 & R2 & L2). destruct (iter_all s' ms) as [s2 outs]. cbn [fst snd] in *.
      exists seen2. cbn [map concat fst snd]. rewrite app_assoc. rewrite <- app_assoc in K2 at 1. rewrite <- app_assoc in K2. cbn [app] in K2. rewrite <- app_assoc.
      split; [exact K2|split].
      * cbn [reports]. rewrite RG in R2. auto.
      * rewrite (last_cons _ G). rewrite RG in L2. exact L2.
    + destruct H as (K' & SF). destruct (IH _ _ _ _ K' HF') as (seen2 & K2 & R2 & L2). exists seen2. rewrite <- app_assoc in K2. cbn [app] in K2. split; [exact K2|split].
      * apply (reports_same _ (it_reported s')); auto. intros t. rewrite (SF t). tauto.
      * destruct (map snd (snd (iter_all s' ms))) as [|G Gs]; [cbn [last] in *; intros t; rewrite (SF t); apply L2|]. rewrite (last_cons _ G). rewrite (last_cons _ G) in L2. exact L2.
Qed.

Lemma ok_reaches seen out ms s F : iter_ok seen out ms s -> reaches ms F -> forall t, beyond (it_progress s) t -> beyond F t.
Proof.
  intros K HR. induction HR as [|F p HR IH Hin Hlow]; intros t Ht; [exists tmin; split; [left; auto|apply tmin_le]|].
  assert (Hp : In p (statements ms)) by (apply in_flat_map; exists (Statement p); split; [auto|left; auto]).
  destruct (ii_ps _ _ _ _ (io_inv _ _ _ _ K) p Hp) as [Hq|Hd]; auto. exfalso.
  pose proof (io_drained _ _ _ _ K p Hq) as Hn. assert (Hy : ac_le (p_lower p) (it_progress s) = true); [|congruence]. apply ac_le_spec. auto.
Qed.
Lemma ok_complete seen out ms s F : iter_ok seen out ms s -> reaches ms F -> (forall u, In u all -> delivered_in ms u) ->
  forall t, beyond (it_reported s) t -> beyond F t.
Proof.
  intros K HR HD t Ht. apply (ok_reaches _ _ _ _ _ K HR). apply (io_bound _ _ _ _ K) in Ht. unfold bound in Ht. apply ac_extend_beyond in Ht as [Ht|Ht]; auto.
  apply ma_frontier_beyond in Ht as (t' & _ & Hw). rewrite (ii_counts _ _ _ _ (io_inv _ _ _ _ K)) in Hw.
  assert (Hc : count_at all t' <= count_at seen t').
  { unfold count_at. apply NoDup_incl_length; [apply NoDup_filter; auto|]. intros u Hu. apply filter_In in Hu as [Hu Et]. apply filter_In. split; auto. apply (io_del _ _ _ _ K); auto. }
  destruct (ac_less_equal (it_progress s) t'); lia.
Qed.
End Iter.

Section Writer.
Context {D T R : Type} {OD : Ord D} {TT : Time T} {OR : Ord R}.
Notation update := (D * T * R)%type.
Notation msg := (message D T R).

Lemma pw_send_split (queue : list msg) : forall answers, fst (pw_send answers queue) ++ snd (pw_send answers queue) = queue.
Proof.
  induction queue as [|m queue IH]; intros [|[|] answers]; cbn [pw_send]; auto.
  - specialize (IH []). destruct (pw_send [] queue) as [sent rest]. cbn [fst snd] in *. cbn [app]. rewrite IH. auto.
  - specialize (IH answers). destruct (pw_send answers queue) as [sent rest]. cbn [fst snd] in *. cbn [app]. rewrite IH. auto.
Qed.
Lemma pw_send_all (queue : list msg) : pw_send [] queue = (queue, []).
Proof. induction queue as [|m queue IH]; auto. cbn [pw_send]. rewrite IH. auto. Qed.

(** the statement of one activation, if any *)
Definition produced (s : ProgressWriter D T R) (us : list update) (F : list T) : list msg :=
  if ac_le (pw_frontier s) F && negb (ac_eqb (pw_frontier s) F) then
    [Statement {| p_lower := pw_frontier s; p_upper := F;
                  p_counts := map (fun x => (fst x, Z.to_nat (snd x))) (filter (fun x => negb (ac_less_equal F (fst x))) (consolidate (pw_timestamps s ++ snd (uw_receive [] us)))) |}]
  else [].

(** [got]: the updates whose counts arrived *)
Record pw_inv (got : list update) (s : ProgressWriter D T R) : Prop := {
  pi_counts : forall t, weight (pw_timestamps s) t = if ac_less_equal (pw_frontier s) t then Z.of_nat (count_at got t) else 0%Z;
  pi_ac : antichain (pw_frontier s)
}.
Lemma pw_step_ok got s us F answers : pw_inv got s -> antichain F -> Forall (fun u => beyond (pw_frontier s) (snd (fst u))) us ->
  (forall t, beyond F t -> beyond (pw_frontier s) t) ->
  let r := pw_step s (snd (uw_receive [] us)) F answers in
  pw_inv (got ++ us) (fst r) /\ same_future F (pw_frontier (fst r)) /\
  snd r ++ pw_queue (fst r) = pw_queue s ++ produced s us F /\
  consecutive (pw_frontier s) (produced s us F) (pw_frontier (fst r)) /\
  (forall rest, Forall (fun u => beyond F (snd (fst u))) rest -> forall p, In (Statement p) (produced s us F) -> truthful (got ++ us ++ rest) p).
Proof.
  intros [Hc Hac] HF Hus Hadv r. subst r. unfold pw_step, produced.
  set (ts := pw_timestamps s ++ snd (uw_receive [] us)).
  assert (Hts : forall t, weight ts t = if ac_less_equal (pw_frontier s) t then Z.of_nat (count_at (got ++ us) t) else 0%Z).
  { intros t. unfold ts, uw_receive. cbn [snd]. rewrite weight_app, Hc, consolidate_weight, weight_plus, count_app. cbn [dplus Diff_Z].
    destruct (ac_less_equal (pw_frontier s) t) eqn:Eb; [lia|]. assert (H0 : count_at us t = 0); [|lia]. unfold count_at.
    destruct (filter (fun u => eqb (snd (fst u)) t) us) as [|u l] eqn:Ef; auto. exfalso. assert (Hu : In u (u :: l)) by (left; auto). rewrite <- Ef in Hu.
    apply filter_In in Hu as [Hu Et]. destruct (eqb_spec (snd (fst u)) t) as [E|]; [|discriminate]. apply (proj1 (Forall_forall _ _) Hus) in Hu. rewrite E in Hu. apply ac_less_equal_false in Eb. auto. }
  destruct (ac_le (pw_frontier s) F && negb (ac_eqb (pw_frontier s) F)) eqn:Ea.
  - set (p := {| p_lower := _; p_upper := F; p_counts := _ |}).
    pose proof (pw_send_split (pw_queue s ++ [Statement p]) answers) as HS. destruct (pw_send answers (pw_queue s ++ [Statement p])) as [sent queue]. cbn [fst snd pw_frontier pw_queue pw_timestamps] in *.
    split; [|split; [intros t; reflexivity|split; [auto|split]]].
    + constructor; cbn [pw_frontier pw_timestamps]; auto. intros t.
      assert (Hw : forall l : list (T * Z), weight (filter (fun x => ac_less_equal F (fst x)) l) t = if ac_less_equal F t then weight l t else 0%Z).
      { induction l as [|x l IH]; [destruct (ac_less_equal F t); auto|]. cbn [filter]. destruct (ac_less_equal F (fst x)) eqn:Ex; rewrite ?weight_cons', IH.
        - destruct (eqb_spec (fst x) t) as [E|]; [rewrite E in Ex; rewrite Ex; auto|]. rewrite !dplus_0_l. auto.
        - destruct (eqb_spec (fst x) t) as [E|]; [rewrite E in Ex; rewrite Ex; auto|]. rewrite !dplus_0_l. auto. }
      rewrite Hw. destruct (ac_less_equal F t) eqn:Ef; auto. rewrite (consolidate_weight ts), Hts. apply ac_less_equal_spec, Hadv, ac_less_equal_spec in Ef. rewrite Ef. auto.
    + cbn [consecutive p_lower p_upper]. split; intros t; reflexivity.
    + intros rest Hrest q [Eq|[]]. inversion Eq; subst q. clear Eq. unfold truthful. cbn [p p_counts p_lower p_upper].
      pose proof (consolidate_consolidated ts) as HC. split.
      * rewrite map_map. cbn [fst]. apply NoDup_map_filter. apply strictly_sorted_nodup. apply HC.
      * intros t c. rewrite in_map_iff.
        assert (Hcount : ~ beyond F t -> count_at (got ++ us ++ rest) t = count_at (got ++ us) t).
        { intros Hn. rewrite app_assoc, count_app. assert (H0 : count_at rest t = 0); [|lia]. unfold count_at.
          destruct (filter (fun u => eqb (snd (fst u)) t) rest) as [|u l] eqn:Ef; auto. exfalso. assert (Hu : In u (u :: l)) by (left; auto). rewrite <- Ef in Hu.
          apply filter_In in Hu as [Hu Et]. destruct (eqb_spec (snd (fst u)) t) as [E|]; [|discriminate]. apply (proj1 (Forall_forall _ _) Hrest) in Hu. rewrite E in Hu. auto. }
        split.
        -- intros ([t' z] & E & Hx). cbn [fst snd] in E. inversion E; subst t' c. apply filter_In in Hx as [Hx Hb]. cbn [fst] in Hb. apply negb_true_iff, ac_less_equal_false in Hb.
           pose proof (consolidated_weight _ HC _ Hx) as Hw. cbn [fst snd] in Hw. rewrite (consolidate_weight ts), Hts in Hw.
           assert (Hz : z <> 0%Z). { intros ->. assert (Hi : In t (map fst (consolidate ts))) by (apply (in_map fst) in Hx; auto). apply (consolidated_in_weight _ _ HC) in Hi. apply Hi. rewrite (consolidate_weight ts), Hts. exact Hw. }
           destruct (ac_less_equal (pw_frontier s) t) eqn:Eb; [|congruence]. apply ac_less_equal_spec in Eb. split; [auto|split; [auto|]]. rewrite (Hcount Hb). lia.
        -- intros (H1 & H2 & H3 & H4). exists (t, Z.of_nat c). cbn [fst snd]. rewrite Nat2Z.id. split; auto. apply filter_In. cbn [fst]. rewrite negb_true_iff, ac_less_equal_false. split; auto.
           rewrite (Hcount H2) in H3. assert (Hw : weight (consolidate ts) t = Z.of_nat c). { rewrite (consolidate_weight ts), Hts. apply ac_less_equal_spec in H1. rewrite H1. congruence. }
           assert (Hi : In t (map fst (consolidate ts))) by (apply (consolidated_in_weight _ _ HC); rewrite Hw; cbn [dzero Diff_Z]; lia).
           apply in_map_iff in Hi as ([t' z] & E & Hx). cbn [fst] in E. subst t'. pose proof (consolidated_weight _ HC _ Hx) as Hw'. cbn [fst snd] in Hw'. rewrite Hw in Hw'. rewrite Hw'. auto.
  - assert (HS : same_future F (pw_frontier s)).
    { apply andb_false_iff in Ea as [Ea|Ea].
      - assert (Hx : ac_le (pw_frontier s) F = true) by (apply ac_le_spec; auto). congruence.
      - apply negb_false_iff in Ea. apply ac_eqb_spec in Ea; auto. intros t. rewrite (Ea t). tauto. }
    cbn [fst snd pw_frontier pw_queue pw_timestamps app]. split; [|split; [auto|split; [rewrite app_nil_r; auto|split]]].
    + constructor; auto.
    + cbn [consecutive]. intros t; reflexivity.
    + intros rest _ p [].
Qed.
Lemma pw_new_ok : pw_inv [] (@pw_new D T R TT).
Proof. constructor; [|apply (ac_from_antichain [tmin])]. intros t. cbn. destruct (tle tmin t || false); auto. Qed.

Lemma consecutive_app (a : list msg) : forall b F G H, consecutive F a G -> consecutive G b H -> consecutive F (a ++ b) H.
Proof.
  induction a as [|[us|p] a IH]; intros b F G H H1 H2; cbn [app consecutive] in *.
  - destruct b as [|[us|p] b]; cbn [consecutive] in *; auto.
    + intros t. rewrite (H1 t). apply H2.
    + destruct H2 as [H2 H3]. split; auto. intros t. rewrite (H1 t). apply H2.
  - auto.
  - destruct H1 as [H1 H3]. split; auto. apply (IH b (p_upper p) G H); auto.
Qed.
Lemma consecutive_same (a : list msg) F F' G : same_future F F' -> consecutive F' a G -> consecutive F a G.
Proof. intros HF. destruct a as [|[us|p] a]; cbn [consecutive]; auto; [intros H t; rewrite (HF t); apply H|]. intros [H1 H2]. split; auto. intros t. rewrite (HF t). apply H1. Qed.

Fixpoint arrived (acts : list (list update * list T * list bool)) : list update := match acts with [] => [] | (us, _, _) :: acts => us ++ arrived acts end.
Lemma legal_same (acts : list (list update * list T * list bool)) F F' : same_future F F' -> legal_activations F acts -> legal_activations F' acts.
Proof.
  intros HS. destruct acts as [|[[us G] an] acts]; auto. cbn [legal_activations]. intros (H1 & H2 & H3 & H4). split; [auto|split; [|split; [|auto]]].
  - eapply Forall_impl; [|exact H2]. intros u Hu. apply HS. auto.
  - intros t Ht. apply HS. auto.
Qed.
Lemma legal_beyond (acts : list (list update * list T * list bool)) : forall F, legal_activations F acts -> Forall (fun u => beyond F (snd (fst u))) (arrived acts).
Proof.
  induction acts as [|[[us G] an] acts IH]; intros F H; [constructor|]. cbn [legal_activations arrived] in *. destruct H as (H1 & H2 & H3 & H4).
  apply Forall_app. split; auto. eapply Forall_impl; [|apply (IH G H4)]. cbn beta. auto.
Qed.
Lemma legal_later (acts : list (list update * list T * list bool)) : forall F, legal_activations F acts -> forall t, beyond (last (map (fun a => snd (fst a)) acts) F) t -> beyond F t.
Proof.
  induction acts as [|[[us G] an] acts IH]; intros F H t Ht; auto. cbn [map fst snd] in Ht. rewrite last_cons in Ht. destruct H as (H1 & H2 & H3 & H4). apply H3. apply (IH G H4 t Ht).
Qed.
Lemma pw_run_ok acts : forall got s, pw_inv got s -> legal_activations (pw_frontier s) acts ->
  let r := pw_run s acts in
  exists made, snd r ++ pw_queue (fst r) = pw_queue s ++ made /\ consecutive (pw_frontier s) made (pw_frontier (fst r)) /\
  same_future (last (map (fun a => snd (fst a)) acts) (pw_frontier s)) (pw_frontier (fst r)) /\
  forall rest, Forall (fun u => beyond (last (map (fun a => snd (fst a)) acts) (pw_frontier s)) (snd (fst u))) rest ->
  forall p, In (Statement p) made -> truthful (got ++ arrived acts ++ rest) p.
Proof.
  induction acts as [|[[us F] an] acts IH]; intros got s I HL r; subst r; cbn [pw_run].
  - exists []. cbn [fst snd app map last]. rewrite app_nil_r. split; [auto|split; [intros t; reflexivity|split; [intros t; reflexivity|intros rest _ p []]]].
  - cbn [legal_activations] in HL. destruct HL as (HF & Hus & Hadv & HL). pose proof (pw_step_ok got s us F an I HF Hus Hadv) as HS. cbn zeta in HS.
    destruct (pw_step s (snd (uw_receive [] us)) F an) as [s1 sent1]. cbn [fst snd] in HS. destruct HS as (I1 & SF & Q1 & C1 & T1).
    destruct (IH _ _ I1 (legal_same _ _ _ SF HL)) as (made & Q2 & C2 & S2 & T2). destruct (pw_run s1 acts) as [s2 sent2]. cbn [fst snd] in *.
    assert (Hlast : same_future (last (map (fun a => snd (fst a)) acts) (pw_frontier s1)) (last (map (fun a => snd (fst a)) acts) F)).
    { destruct acts as [|a acts]; [cbn; intros t; rewrite (SF t); tauto|]. cbn [map]. rewrite !last_cons. intros t; reflexivity. }
    exists (produced s us F ++ made). cbn [map fst snd]. rewrite last_cons. split; [|split; [|split]].
    + rewrite <- app_assoc, Q2, app_assoc, Q1, app_assoc. auto.
    + apply (consecutive_app _ _ _ (pw_frontier s1)); auto.
    + intros t. rewrite <- (Hlast t). apply S2.
    + intros rest Hrest p Hp. cbn [arrived]. apply in_app_or in Hp as [Hp|Hp].
      * rewrite <- app_assoc. apply T1; [|auto]. apply Forall_app. split; [apply (legal_beyond acts F HL)|]. eapply Forall_impl; [|exact Hrest]. cbn beta. intros u. apply (legal_later acts F HL).
      * assert (HT := T2 rest). rewrite <- !app_assoc in HT. rewrite <- !app_assoc. apply HT; [|auto]. eapply Forall_impl; [|exact Hrest]. cbn beta. intros u Hu. apply Hlast. auto.
Qed.

(** consecutive statements reach *)
Lemma consecutive_reaches (made : list msg) : forall F G ms, consecutive F made G -> incl made ms -> (exists F', reaches ms F' /\ same_future F' F) ->
  exists G', reaches ms G' /\ same_future G' G.
Proof.
  induction made as [|[us|p] made IH]; intros F G ms HC HI HR; cbn [consecutive] in HC.
  - destruct HR as (F' & HR & HS). exists F'. split; auto. intros t. rewrite (HS t). apply HC.
  - destruct HC.
  - destruct HC as [HC1 HC2]. apply (IH (p_upper p) G ms HC2); [intros x Hx; apply HI; right; auto|]. exists (p_upper p). split; [|intros t; reflexivity].
    destruct HR as (F' & HR & HS). apply (re_step ms F' p HR); [apply HI; left; auto|]. intros t Ht. apply HC1, HS. auto.
Qed.
End Writer.
