(** Nodes that fire when their smaller neighbours have. *)
From Verif Require Import Base.Collections Spec.GraphSpec Spec.SequenceSpec Spec.PrefixSumSpec Model.GraphM Proofs.ConsolidationP Proofs.OperatorsP Proofs.GraphP.
Local Open Scope Z_scope.

Section Sums.
Context {A : Type} {OA : Ord A}.
Lemma lsum_ext (f g : A -> Z -> Z) (l : coll A) : (forall a w, In (a, w) l -> f a w = g a w) -> lsum f l = lsum g l.
Proof. induction l as [|[a w] l IH]; intros H; [reflexivity|]. rewrite !lsum_cons'. cbn [fst snd]. rewrite H by (left; auto). f_equal. apply IH. intros b v Hb. apply H. right. auto. Qed.
Lemma lsum_plus (f g : A -> Z -> Z) (l : coll A) : lsum (fun a w => f a w + g a w) l = lsum f l + lsum g l.
Proof. induction l as [|[a w] l IH]; [reflexivity|]. rewrite !lsum_cons', IH. zd. lia. Qed.
Lemma lsum_filter (p : A -> bool) (f : A -> Z -> Z) (l : coll A) : lsum f (k_filter p l) = lsum (fun a w => if p a then f a w else 0) l.
Proof. unfold k_filter. induction l as [|[a w] l IH]; [reflexivity|]. rewrite lsum_cons'. cbn [filter fst snd]. destruct (p a); [rewrite lsum_cons', IH; reflexivity|]. rewrite IH. zd. lia. Qed.
(* a sum that is linear in the counts may be taken over what is there *)
Lemma lsum_members (h h' : A -> Z) (l : coll A) : nonneg l -> (forall a, member l a -> h a = h' a) -> lsum (fun a w => h a * w) l = lsum (fun a w => h' a * w) l.
Proof.
  intros HN H. assert (S : forall k : A -> Z, lsum (fun a w => k a * w) l = lsum (fun a w => k a * w) (consolidate l)).
  { intros k. apply lsum_same_weights; [intros a; cbn; zd; lia|intros a x y; cbn; zd; lia|]. apply same_weights_sym. intros a. apply consolidate_weight. }
  rewrite !S. apply lsum_ext. intros a w Ha. f_equal. apply H. unfold member. rewrite <- (consolidate_weight l a).
  pose proof (consolidate_consolidated l) as HC. specialize (HN a). rewrite <- (consolidate_weight l a) in HN.
  assert (weight (consolidate l) a <> 0). { apply (consolidated_in_weight _ a HC). apply in_map_iff. exists (a, w). auto. } lia.
Qed.
End Sums.

Section Messages.
Context {N X : Type} {ON : Ord N} {OX : Ord X}.
Lemma w_messages (c : coll (N * X)) (e : coll (N * N)) n o :
  weight (k_join_map (fun (_ : N) (v : X) (d : N) => (d, v)) c e) (n, o) = lsum (fun md w => (if eqb (snd md) n then weight c (fst md, o) else 0) * w) e.
Proof.
  unfold k_join_map. induction c as [|[[k v] r] c IH].
  - cbn [flat_map]. rewrite weight_nil. induction e as [|[[m d] w] e IHe]; [reflexivity|]. rewrite lsum_cons', <- IHe. cbn [fst snd]. rewrite weight_nil. zd. destruct (eqb _ _); lia.
  - cbn [flat_map]. rewrite weight_app, IH. clear IH. cbn [fst snd].
    induction e as [|[[m d] w] e IHe]; [reflexivity|]. cbn [filter fst snd]. rewrite !lsum_cons', <- IHe. cbn [fst snd]. rewrite weight_cons'. cbn [fst snd]. zd.
    destruct (eqb_spec m k) as [->|Hm].
    + cbn [map fst snd]. rewrite weight_cons'. cbn [fst snd]. zd. destruct (eqb_spec d n) as [->|Hd].
      * destruct (eqb_spec v o) as [->|Hv].
        -- rewrite !eqb_refl. lia.
        -- destruct (eqb_spec (n, v) (n, o)); [congruence|]. destruct (eqb_spec (k, v) (k, o)); [congruence|]. lia.
      * destruct (eqb_spec (d, v) (n, o)); [congruence|]. lia.
    + destruct (eqb_spec (k, v) (m, o)); [congruence|]. destruct (eqb_spec d n); lia.
Qed.
End Messages.

Section Order.
Context {N V : Type} {ON : Ord N} {OV : Ord V}.
Variables (logic : N -> list (V * Z) -> V) (edges : coll (N * N)) (state : coll (N * V)).
Local Notation values_into := (values_into edges state).
Local Notation in_order := (in_order logic edges state).

Lemma values_into_ext new new' n : (forall m, ltb m n = true -> new_value new m = new_value new' m) -> values_into new n = values_into new' n.
Proof.
  intros H. unfold values_into. f_equal. apply flat_map_ext. intros [[m n'] w]. destruct (eqb n' n); [|auto]. destruct (ltb m n) eqn:El; [rewrite H; auto|auto].
Qed.
Lemma in_order_ok : forall nodes new, strictly_sorted nodes -> (forall n x, In n nodes -> In x new -> lt (fst x) n) ->
  (forall m, ~ In m nodes -> new_value (in_order nodes new) m = new_value new m) /\
  (forall n, In n nodes -> new_value (in_order nodes new) n = match values_into (in_order nodes new) n with [] => [] | vs => [logic n vs] end).
Proof.
  induction nodes as [|n nodes IH]; intros new HS HN; [split; [auto|intros n []]|]. cbn [SequenceSpec.in_order].
  set (new' := match values_into new n with [] => new | vs => (n, logic n vs) :: new end).
  assert (HS' : strictly_sorted nodes) by (inversion HS; subst; [constructor|auto]).
  assert (HL : forall m, In m nodes -> lt n m). { intros m Hm. apply strictly_sorted_cons_inv in HS as [_ HF]. rewrite Forall_forall in HF. auto. }
  destruct (IH new' HS') as [I1 I2].
  { intros m x Hm Hx. unfold new' in Hx. assert (Hx' : In x new \/ fst x = n). { destruct (values_into new n); [auto|]. destruct Hx as [<-|Hx]; auto. }
    destruct Hx' as [Hx'| ->]; [apply HN; [right|]; auto|]. apply HL. auto. }
  assert (HO : forall m, m <> n -> new_value new' m = new_value new m).
  { intros m Hm. unfold new'. destruct (values_into new n); [auto|]. unfold new_value. cbn [filter fst]. destruct (eqb_spec n m); [congruence|auto]. }
  assert (Hn : ~ In n nodes). { intros H. apply (lt_irrefl n). apply HL. auto. }
  split.
  - intros m Hm. rewrite I1 by (intros H; apply Hm; right; auto). apply HO. intros ->. apply Hm. left. auto.
  - intros m [<-|Hm]; [|apply I2; auto]. rewrite I1 by auto.
    rewrite (values_into_ext (in_order nodes new') new n).
    + unfold new'. assert (E0 : new_value new n = []).
      { unfold new_value. clear - HN. induction new as [|x new IH]; [auto|]. cbn [filter]. destruct (eqb_spec (fst x) n) as [Ex|Ex].
        - exfalso. apply (lt_irrefl n). rewrite <- Ex at 1. apply HN; left; auto.
        - apply IH. intros m y Hm Hy. apply HN; [auto|right; auto]. }
      destruct (values_into new n) as [|y l]; [auto|]. unfold new_value in *. cbn [filter fst]. rewrite eqb_refl. cbn [map snd]. rewrite E0. auto.
    + intros m Hl. apply ltb_lt in Hl. rewrite I1; [apply HO; intros ->; exact (lt_irrefl _ Hl)|]. intros Hm. apply (lt_irrefl m). eapply lt_trans; [exact Hl|apply HL; auto].
Qed.
Lemma w_values_into new n v : weight (values_into new n) v =
  lsum (fun md w => (if eqb (snd md) n && ltb (fst md) n then weight (map (fun u => (u, 1)) (new_value new (fst md))) v else 0) * w) edges +
  lsum (fun md w => (if eqb (snd md) n && ltb n (fst md) then weight state (fst md, v) else 0) * w) edges.
Proof.
  unfold SequenceSpec.values_into. rewrite (consolidate_weight _ v). rewrite <- lsum_plus. clear. induction edges as [|[[m d] w] es IH]; [reflexivity|]. cbn [flat_map]. rewrite weight_app, lsum_cons', IH. cbn [fst snd]. f_equal. clear IH.
        destruct (eqb d n); cbn [andb]; [|rewrite weight_nil; zd; lia]. destruct (ltb m n) eqn:E1.
        + assert (E2 : ltb n m = false). { apply not_true_iff_false. intros E2. apply ltb_lt in E1, E2. exact (lt_irrefl _ (lt_trans _ _ _ E1 E2)). } rewrite E2.
          induction (new_value new m) as [|u l IH]; [cbn; zd; lia|]. cbn [map]. rewrite !weight_cons'. cbn [fst snd]. zd. destruct (eqb u v); lia.
        + destruct (ltb n m); [|rewrite weight_nil; zd; lia]. clear. induction state as [|[[a u] r] st IH]; [reflexivity|]. cbn [filter fst snd]. rewrite weight_cons'. cbn [fst snd]. zd.
          destruct (eqb_spec a m) as [->|Ha].
          * cbn [map fst snd]. rewrite weight_cons'. cbn [fst snd]. zd. destruct (eqb_spec u v) as [->|Hu]; [rewrite eqb_refl; lia|]. destruct (eqb_spec (m, u) (m, v)); [congruence|]. lia.
          * destruct (eqb_spec (a, u) (m, v)); [congruence|]. lia.
Qed.
Lemma no_values_into new n : nonneg edges -> (forall m, ~ member edges (m, n)) -> values_into new n = [].
Proof.
  intros EN H. apply consolidated_unique; [apply consolidate_consolidated|apply consolidated_nil|]. intros v. rewrite w_values_into, weight_nil.
  assert (Z0 : forall l : coll (N * N), lsum (fun _ w => 0 * w) l = 0). { induction l as [|x l IH]; [reflexivity|]. rewrite lsum_cons', IH. reflexivity. }
  assert (Z1 : forall h : N * N -> Z, (forall m, h m = 0 \/ snd m = n) -> lsum (fun md w => h md * w) edges = 0).
  { intros h Hh. rewrite (lsum_members h (fun _ => 0) edges EN); [apply Z0|]. intros [m d] He. destruct (Hh (m, d)) as [|Hd]; [auto|]. cbn [snd] in Hd. subst. exfalso. eapply H; eauto. }
  rewrite !Z1; [reflexivity| |]; intros [m d]; cbn [fst snd]; destruct (eqb_spec d n); auto.
Qed.
End Order.

Section Fire.
Context {N V : Type} {ON : Ord N} {OV : Ord V}.
Variables (logic : N -> list (V * Z) -> V) (edges : coll (N * N)) (state : coll (N * V)) (fin : list (N * V)).
Hypotheses (EN : nonneg edges) (SN : nonneg state).
Hypothesis fin_ok : forall n, new_value fin n = match values_into edges state fin n with [] => [] | vs => [logic n vs] end.
Local Notation fwd := (k_filter (fun e => ltb (fst e) (snd e)) edges).
Local Notation rev := (k_filter (fun e => ltb (snd e) (fst e)) edges).
Local Notation body := (sq_body logic edges state).

Definition settled_at (s : coll (N * option V)) (n : N) : Prop := forall o, weight s (n, o) = weight (map (fun v => (Some v, 1)) (new_value fin n)) o.
Lemma fwd_nonneg : nonneg fwd. Proof. intros [a b]. rewrite w_filter. destruct (ltb _ _); [apply EN|lia]. Qed.

Lemma body_ok (s : coll (N * option V)) : nonneg s -> nonneg (body s) /\ forall n, (forall m, member fwd (m, n) -> settled_at s m) -> settled_at (body s) n.
Proof.
  intros HS. unfold sq_body. set (nm := k_join_map _ s fwd). set (nn := k_filter (fun x : N * option V => match snd x with None => true | Some _ => false end) nm). set (inc := k_distinct _). set (vm := k_flat_map _ nm). set (om := k_join_map _ state rev).
  set (msgs := k_antijoin _ inc).
  assert (NMN : forall n o, 0 <= weight nm (n, o) /\ (member nm (n, o) <-> exists m, member s (m, o) /\ member fwd (m, n))).
  { intros n o. destruct (p_join (fun (_ : N) (v : option V) (d : N) => (d, v)) s fwd (n, o) HS fwd_nonneg) as [J1 J2]. split; [exact J1|]. unfold member at 1. fold nm in J2. rewrite J2. split.
    - intros (m & v & n' & H1 & H2 & H3). injection H3 as -> ->. eauto.
    - intros (m & H1 & H2). exists m, o, n. auto. }
  assert (IW : forall n, weight inc n = if 0 <? weight nm (n, None) then 1 else 0).
  { intros n. unfold inc. rewrite w_distinct. assert (Ew : weight (k_map fst nn) n = weight nm (n, None)); [|rewrite Ew; auto].
    unfold nn. clearbody nm. clear. unfold k_map, k_filter. induction nm as [|[[a o] w] nm IH]; [reflexivity|]. cbn [filter fst snd]. rewrite weight_cons'. cbn [fst snd]. rewrite <- IH.
    destruct o as [v|].
    - destruct (eqb_spec (a, Some v) (n, None)); [congruence|]. zd. lia.
    - cbn [map fst snd]. rewrite weight_cons'. cbn [fst snd]. destruct (eqb_spec (a, @None V) (n, None)) as [Hp|Hp], (eqb_spec a n); auto; congruence. }
  assert (VW : forall n v, weight vm (n, v) = weight nm (n, Some v)).
  { intros n v. unfold vm. clearbody nm. clear. unfold k_flat_map. induction nm as [|[[a o] w] nm IH]; [reflexivity|]. cbn [flat_map fst snd]. rewrite weight_app, weight_cons', IH. cbn [fst snd]. f_equal.
    destruct o as [u|]; cbn [map].
    - rewrite weight_one. destruct (eqb_spec (a, u) (n, v)), (eqb_spec (a, Some u) (n, Some v)); auto; congruence.
    - rewrite weight_nil. destruct (eqb_spec (a, @None V) (n, Some v)); [congruence|auto]. }
  assert (MW : forall n v, weight msgs (n, v) = (weight nm (n, Some v) + weight om (n, v)) * (1 - weight inc n)).
  { intros n v. unfold msgs, k_antijoin. rewrite w_concat, w_negate, w_semijoin, w_concat, VW. lia. }
  assert (LW : forall n o, weight (k_map (fun x => (x, @None V)) inc) (n, o) = if eqb o None then weight inc n else 0).
  { intros n o. destruct (eqb_spec o None) as [->|Ho].
    - apply (w_map_inj (fun x : N => (x, @None V))). intros d H. injection H as ->. auto.
    - apply (w_map_out (fun x : N => (x, @None V))). intros d H. injection H as _ H. congruence. }
  split.
  - intros [n o]. rewrite w_concat, LW, w_reduce, IW.
    assert (0 <= match k_values msgs n with [] => 0 | input => weight [(Some (logic n input), 1)] o end). { destruct (k_values msgs n); [lia|]. rewrite weight_one. zd. destruct (eqb _ _); lia. }
    destruct (eqb o None); [destruct (0 <? weight nm (n, None))|]; lia.
  - intros n HF o. rewrite w_concat, LW, w_reduce.
    assert (I0 : weight inc n = 0).
    { rewrite IW. destruct (Z.ltb_spec 0 (weight nm (n, None))) as [Hp|Hp]; [|auto]. exfalso. apply (proj2 (NMN n None)) in Hp as (m & H1 & H2). unfold member in H1. rewrite (HF m H2) in H1.
      clear - H1. induction (new_value fin m) as [|v l IH]; [cbn in H1; zd; lia|]. cbn [map] in H1. rewrite weight_cons' in H1. cbn [fst snd] in H1. destruct (eqb_spec (Some v) None); [congruence|]. apply IH. zd. lia. }
    assert (KV : k_values msgs n = values_into edges state fin n).
    { apply consolidated_unique; [apply values_consolidated|apply consolidate_consolidated|]. intros v. rewrite w_values, MW, I0. unfold values_into. rewrite (consolidate_weight _ v).
      transitivity (lsum (fun md w => (if eqb (snd md) n && ltb (fst md) n then weight (map (fun u => (u, 1)) (new_value fin (fst md))) v else 0) * w) edges +
                    lsum (fun md w => (if eqb (snd md) n && ltb n (fst md) then weight state (fst md, v) else 0) * w) edges).
      - assert (A1 : weight nm (n, Some v) = lsum (fun md w => (if eqb (snd md) n && ltb (fst md) n then weight (map (fun u => (u, 1)) (new_value fin (fst md))) v else 0) * w) edges).
        { unfold nm. rewrite w_messages, lsum_filter.
          transitivity (lsum (fun md w => (if eqb (snd md) n && ltb (fst md) n then weight s (fst md, Some v) else 0) * w) edges).
          - apply lsum_ext. intros [m d] w _. cbn [fst snd]. destruct (eqb_spec d n) as [->|Hd]; cbn [andb]; [destruct (ltb m n); lia|destruct (ltb _ _); lia].
          - apply lsum_members; [auto|]. intros [m d] He. cbn [fst snd]. destruct (eqb_spec d n) as [->|Hd]; cbn [andb]; [|auto]. destruct (ltb m n) eqn:El; [|auto].
            rewrite HF by (unfold member; rewrite w_filter; cbn [fst snd]; rewrite El; exact He).
            induction (new_value fin m) as [|u l IH]; [reflexivity|]. cbn [map]. rewrite !weight_cons', IH. cbn [fst snd]. destruct (eqb_spec (Some u) (Some v)), (eqb_spec u v); auto; congruence. }
        assert (A2 : weight om (n, v) = lsum (fun md w => (if eqb (snd md) n && ltb n (fst md) then weight state (fst md, v) else 0) * w) edges).
        { unfold om. rewrite w_messages, lsum_filter. apply lsum_ext. intros [m d] w _. cbn [fst snd]. destruct (eqb_spec d n) as [->|Hd]; cbn [andb]; [destruct (ltb n m); lia|destruct (ltb _ _); lia]. }
        rewrite A1, A2. lia.
      - symmetry. rewrite <- (consolidate_weight _ v). apply (w_values_into edges state fin n v). }
    rewrite KV, I0, fin_ok. destruct (values_into edges state fin n) as [|y l]; [destruct (eqb o None); reflexivity|]. cbn [map]. zd. destruct (eqb o None); lia.
Qed.

Local Notation at_round r := (k_iterate r body (k_map (fun x => (fst x, None)) state)).
Definition shallow (r : nat) (n : N) : Prop := forall k m, walk fwd k m n -> (k < r)%nat.
Lemma rounds_ok r : nonneg (at_round r) /\ forall n, shallow r n -> settled_at (at_round r) n.
Proof.
  induction r as [|r [IN IS]].
  - split.
    + intros e. cbn [k_iterate]. apply (p_map (fun x : N * V => (fst x, @None V)) state e SN).
    + intros n H. specialize (H 0%nat n (walk_here _ n)). lia.
  - cbn [k_iterate]. destruct (body_ok _ IN) as [B1 B2]. split; [auto|]. intros n H. apply B2. intros m Hm. apply IS. intros k m' W. assert (S k < S r)%nat by (eapply H; econstructor; eauto). lia.
Qed.
(* edges that only go up do not repeat *)
Lemma climbs k : forall m n, walk fwd k m n -> exists es : list (N * N), length es = k /\ NoDup es /\ Forall (member fwd) es /\ Forall (fun e => le (snd e) n) es.
Proof.
  induction k as [|k IH]; intros m n W.
  - exists []. repeat split; constructor.
  - inversion W as [|k' a y z W' He]; subst. destruct (IH m y W') as (es & E1 & E2 & E3 & E4).
    assert (Hl : lt y n). { unfold member in He. rewrite w_filter in He. cbn [fst snd] in He. destruct (ltb y n) eqn:El; [apply ltb_lt; auto|lia]. }
    exists ((y, n) :: es). split; [cbn; lia|]. split; [|split].
    + constructor; [|auto]. intros HI. rewrite Forall_forall in E4. apply E4 in HI. cbn [snd] in HI. apply (lt_irrefl y). eapply lt_le_trans; eauto.
    + constructor; auto.
    + constructor; [apply le_refl|]. eapply Forall_impl; [|exact E4]. cbv beta. intros e H. eapply le_trans; [exact H|]. apply lt_le. auto.
Qed.
Lemma all_shallow n : shallow (S (length edges)) n.
Proof.
  intros k m W. destruct (climbs k m n W) as (es & <- & E2 & E3 & _). rewrite <- (map_length fst edges). apply Nat.lt_succ_r. apply NoDup_incl_length; [auto|]. intros e He.
  rewrite Forall_forall in E3. apply E3 in He. apply member_in. unfold member in *. rewrite w_filter in He. destruct (ltb _ _); [auto|lia].
Qed.
Lemma fires rounds n : (length edges < rounds)%nat -> settled_at (at_round rounds) n.
Proof. intros H. apply rounds_ok. intros k m W. pose proof (all_shallow n k m W). lia. Qed.
End Fire.
