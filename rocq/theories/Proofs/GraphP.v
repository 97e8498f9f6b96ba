(** Labels that spread along edges and keep to the least. *)
From Verif Require Import Base.Collections Spec.GraphSpec Spec.PrefixSumSpec Model.GraphM Proofs.ConsolidationP Proofs.OperatorsP.
Local Open Scope Z_scope.

Section Least.
Context {K V : Type} {OK : Ord K} {OV : Ord V}.
Implicit Types c : coll (K * V).

Lemma sorted_head (a : V) l : strictly_sorted (a :: l) -> forall b, In b l -> le a b.
Proof.
  revert a. induction l as [|b l IH]; intros a H x Hx; [destruct Hx|]. inversion H as [| |a' b' l' Hlt Hs]; subst. 
  assert (le a b) by (apply lt_le; auto).
  destruct Hx as [->|Hx]; [auto|]. eapply le_trans; [eassumption|]. apply IH; auto.
Qed.
Lemma in_values c k v : In v (map fst (k_values c k)) <-> weight c (k, v) <> 0.
Proof. rewrite (consolidated_in_weight _ v (values_consolidated c k)), w_values. reflexivity. Qed.
Lemma reduce_least c k v : nonneg c ->
  (weight (k_reduce least_value c) (k, v) = 1 /\ least (fun v => member c (k, v)) v) \/
  (weight (k_reduce least_value c) (k, v) = 0 /\ ~ least (fun v => member c (k, v)) v).
Proof.
  intros NN. rewrite w_reduce. pose proof (in_values c k) as HI. destruct (values_consolidated c k) as [HS _].
  assert (HM : forall v, member c (k, v) <-> In v (map fst (k_values c k))). { intros v'. rewrite HI. unfold member. specialize (NN (k, v')). lia. }
  destruct (k_values c k) as [|x l].
  - right. split; [auto|]. intros [H _]. apply HM in H. destruct H.
  - cbn [least_value]. rewrite weight_one. cbn [map] in *. destruct (eqb_spec (fst x) v) as [Ev|Hne]; [left|right]; (split; [auto|]).
    + subst v. split; [apply HM; left; auto|]. intros b Hb. apply HM in Hb. destruct Hb as [->|Hb]; [apply le_refl|]. eapply sorted_head; eauto.
    + intros [H1 H2]. apply Hne. apply HM in H1. destruct H1 as [H1|H1]; [auto|]. apply le_antisym; [eapply sorted_head; eauto|]. apply H2, HM. left. auto.
Qed.
Lemma least_exists c k v : nonneg c -> member c (k, v) -> exists v', least (fun v => member c (k, v)) v' /\ le v' v.
Proof.
  intros NN H. pose proof (in_values c k) as HI. destruct (values_consolidated c k) as [HS _].
  assert (HM : forall v, member c (k, v) <-> In v (map fst (k_values c k))). { intros v'. rewrite HI. unfold member. specialize (NN (k, v')). lia. }
  destruct (k_values c k) as [|x l]; [apply HM in H; destruct H|]. cbn [map] in *.
  assert (HL : least (fun v => member c (k, v)) (fst x)).
  { split; [apply HM; left; auto|]. intros b Hb. apply HM in Hb. destruct Hb as [->|Hb]; [apply le_refl|]. eapply sorted_head; eauto. }
  exists (fst x). split; [auto|]. apply HL. auto.
Qed.
End Least.

Section Spread.
Context {N L : Type} {ON : Ord N} {OL : Ord L}.
Variables (edges : coll (N * N)) (hop : L -> L).
Hypothesis edges_nonneg : nonneg edges.
Hypothesis hop_mono : forall a b, le a b -> le (hop a) (hop b).

(* [c] has only labels that are claimed, and for each claim one as good *)
Definition covers (P : N -> L -> Prop) (c : coll (N * L)) : Prop :=
  nonneg c /\ (forall n l, member c (n, l) -> P n l) /\ (forall n l, P n l -> exists l', le l' l /\ member c (n, l')).
Definition exactly_least (P : N -> L -> Prop) (c : coll (N * L)) : Prop := holds_exactly c (fun x => least (P (fst x)) (snd x)).
(* the claims after one more step *)
Definition next_claims (P Q : N -> L -> Prop) (n : N) (l : L) : Prop := (exists m l', P m l' /\ member edges (m, n) /\ l = hop l') \/ Q n l.

Lemma spread_ok (P Q : N -> L -> Prop) c src : covers P c -> nonneg src -> (forall n l, member src (n, l) <-> Q n l) ->
  let r := k_reduce least_value (k_concat (k_join_map (fun _ l d => (d, hop l)) c edges) src) in
  exactly_least (next_claims P Q) r /\ covers (next_claims P Q) r.
Proof.
  intros (CN & CS & CC) SN HQ r. set (j := k_join_map (fun _ l d => (d, hop l)) c edges) in *.
  assert (JW : forall n l, 0 <= weight j (n, l) /\ (member j (n, l) <-> exists m l', member c (m, l') /\ member edges (m, n) /\ l = hop l')).
  { intros n l. destruct (p_join (fun (_ : N) l d => (d, hop l)) c edges (n, l) CN edges_nonneg) as [J1 J2]. split; [exact J1|]. unfold member. fold j in J2. rewrite J2. split.
    - intros (m & l' & n' & H1 & H2 & H3). injection H3 as <- <-. eauto.
    - intros (m & l' & H1 & H2 & H3). exists m, l', n. repeat split; auto. congruence. }
  assert (KN : nonneg (k_concat j src)). { intros [n l]. rewrite w_concat. specialize (SN (n, l)). destruct (JW n l). lia. }
  assert (KM : forall n l, member (k_concat j src) (n, l) <-> member j (n, l) \/ Q n l).
  { intros n l. rewrite <- HQ. unfold member. rewrite w_concat. specialize (SN (n, l)). destruct (JW n l). lia. }
  assert (KP : forall n l, member (k_concat j src) (n, l) -> next_claims P Q n l).
  { intros n l H. apply KM in H as [H|H]; [left|right; auto]. apply JW in H as (m & l' & H1 & H2 & H3). exists m, l'. auto. }
  assert (PK : forall n l, next_claims P Q n l -> exists l', le l' l /\ member (k_concat j src) (n, l')).
  { intros n l [(m & l0 & H1 & H2 & ->)|H].
    - destruct (CC _ _ H1) as (l' & Hl & Hm). exists (hop l'). split; [auto|]. apply KM. left. apply JW. exists m, l'. auto.
    - exists l. split; [apply le_refl|]. apply KM. auto. }
  assert (LL : forall n l, least (fun l => member (k_concat j src) (n, l)) l <-> least (next_claims P Q n) l).
  { intros n l. split; intros [H1 H2]; split.
    - apply KP. auto.
    - intros b Hb. apply PK in Hb as (b' & Hb' & Hm). eapply le_trans; [apply H2; eassumption|auto].
    - destruct (PK _ _ H1) as (l' & Hl & Hm). assert (l' = l) by (apply le_antisym; auto). subst l'. auto.
    - intros b Hb. apply H2, KP. auto. }
  assert (RL : forall n l, (weight r (n, l) = 1 /\ least (next_claims P Q n) l) \/ (weight r (n, l) = 0 /\ ~ least (next_claims P Q n) l)).
  { intros n l. destruct (reduce_least (k_concat j src) n l KN) as [[H1 H2]|[H1 H2]]; [left|right]; (split; [exact H1|]); rewrite <- LL; auto. }
  split.
  - intros [n l]. cbn [fst snd]. destruct (RL n l) as [[H1 H2]|[H1 H2]]; auto.
  - split; [|split].
    + intros [n l]. destruct (RL n l) as [[H1 H2]|[H1 H2]]; lia.
    + intros n l H. unfold member in H. destruct (RL n l) as [[H1 H2]|[H1 H2]]; [apply H2|lia].
    + intros n l H. destruct (PK _ _ H) as (l0 & Hl0 & Hm0). destruct (least_exists _ n l0 KN Hm0) as (l1 & Hl1 & Hle). exists l1. split; [eapply le_trans; eauto|].
      unfold member. apply LL in Hl1. destruct (RL n l1) as [[H1 H2]|[H1 H2]]; [lia|contradiction].
Qed.
End Spread.

Section Walks.
Context {N : Type} {ON : Ord N}.
Implicit Types g : coll (N * N).

Lemma walk_sub g g' k x y : (forall e, member g e -> member g' e) -> walk g k x y -> walk g' k x y.
Proof. intros H W. induction W; [constructor|]. econstructor; eauto. Qed.
Lemma walk_app g j x y : walk g j x y -> forall k z, walk g k y z -> walk g (j + k) x z.
Proof. intros W k z V. induction V as [|k y z z' V IH He]; [rewrite Nat.add_0_r; auto|]. rewrite Nat.add_succ_r. econstructor; eauto. Qed.
Lemma walk_first g k : forall x z, walk g (S k) x z -> exists y, member g (x, y) /\ walk g k y z.
Proof.
  induction k as [|k IH]; intros x z W; inversion W as [|k' x' y z' V He]; subst.
  - inversion V; subst. exists z. split; [auto|constructor].
  - apply IH in V as (w & Hw & V). exists w. split; [auto|]. econstructor; eauto.
Qed.
Lemma reaches_refl g x : reaches g x x. Proof. exists 0%nat. constructor. Qed.
Lemma reaches_trans g x y z : reaches g x y -> reaches g y z -> reaches g x z.
Proof. intros [j H] [k H']. exists (j + k)%nat. eapply walk_app; eauto. Qed.
Lemma reaches_edge g x y : member g (x, y) -> reaches g x y.
Proof. intros H. exists 1%nat. econstructor; [constructor|auto]. Qed.
Lemma reaches_sub g g' x y : (forall e, member g e -> member g' e) -> reaches g x y -> reaches g' x y.
Proof. intros H [k W]. exists k. eapply walk_sub; eauto. Qed.
Lemma reaches_ind' g (P : N -> Prop) x : P x -> (forall y z, P y -> member g (y, z) -> P z) -> forall y, reaches g x y -> P y.
Proof. intros H0 HS y [k W]. induction W; eauto. Qed.
Lemma reaches_back g (P : N -> Prop) y : P y -> (forall x z, P z -> member g (x, z) -> P x) -> forall x, reaches g x y -> P x.
Proof.
  intros H0 HS x [k W]. revert x W. induction k as [|k IH]; intros x W.
  - inversion W; subst; auto.
  - apply walk_first in W as (z & Hz & W). eauto.
Qed.

(* a shortest walk from a set of nodes takes each of its edges at another distance *)
Lemma shortest g (R : N -> Prop) : forall d n r, R r -> walk g d r n -> (forall r' d', R r' -> walk g d' r' n -> (d <= d')%nat) ->
  exists es : list (N * N), length es = d /\ NoDup es /\ Forall (member g) es /\
    (forall e, In e es -> exists r i, R r /\ (i < d)%nat /\ walk g (S i) r (snd e) /\ forall r' d', R r' -> walk g d' r' (snd e) -> (S i <= d')%nat).
Proof.
  induction d as [|d IH]; intros n r Hr W Hmin.
  - exists []. repeat split; [constructor|constructor|intros e []].
  - inversion W as [|d' x y z V He]; subst.
    assert (HminY : forall r' d', R r' -> walk g d' r' y -> (d <= d')%nat). { intros r' d' Hr' W'. assert (S d <= S d')%nat by (eapply Hmin; [eassumption|econstructor; eauto]). lia. }
    destruct (IH y r Hr V HminY) as (es & E1 & E2 & E3 & E4). exists ((y, n) :: es). split; [cbn; lia|]. split; [|split].
    + constructor; [|auto]. intros HI. destruct (E4 _ HI) as (r' & i & Hr' & Hi & W' & _). cbn [snd] in W'. assert (S d <= S i)%nat by (eapply Hmin; eauto). lia.
    + constructor; auto.
    + intros e [<-|HI]; cbn [snd].
      * exists r, d. repeat split; auto.
      * destruct (E4 _ HI) as (r' & i & H1 & H2 & H3 & H4). exists r', i. repeat split; auto.
Qed.
Lemma shortest_bound g (R : N -> Prop) (es : list (N * N)) : (forall e, member g e -> In e es) ->
  forall d n r, R r -> walk g d r n -> (forall r' d', R r' -> walk g d' r' n -> (d <= d')%nat) -> (d <= length es)%nat.
Proof.
  intros Hes d n r Hr W Hmin. destruct (shortest g R d n r Hr W Hmin) as (l & <- & E2 & E3 & _).
  apply NoDup_incl_length; [auto|]. intros e He. rewrite Forall_forall in E3. auto.
Qed.
Lemma in_dec' {A} (P : A -> Prop) (l : list A) : (forall a, P a \/ ~ P a) -> (exists a, In a l /\ P a) \/ ~ (exists a, In a l /\ P a).
Proof.
  intros H. induction l as [|a l IH]; [right; intros (a & [] & _)|]. destruct (H a) as [Ha|Ha]; [left; exists a; split; [left|]; auto|].
  destruct IH as [(b & H1 & H2)|IH]; [left; exists b; split; [right|]; auto|]. right. intros (b & [<-|H1] & H2); [auto|]. apply IH. eauto.
Qed.
Lemma member_in g e : member g e -> In e (map fst g).
Proof. intros H. destruct (in_dec eq_dec e (map fst g)) as [|Hn]; [auto|]. unfold member in H. rewrite weight_notin in H; [zd; lia|auto]. Qed.
Lemma walk_dec g k : forall x y, walk g k x y \/ ~ walk g k x y.
Proof.
  induction k as [|k IH]; intros x z.
  - destruct (eqb_spec x z) as [->|Hn]; [left; constructor|]. right. intros W. inversion W; auto.
  - destruct (in_dec' (fun e => snd e = z /\ member g e /\ walk g k x (fst e)) (map fst g)) as [([a b] & _ & H2 & H3 & H4)|Hn].
    + intros e. destruct (eqb_spec (snd e) z) as [E1|E1]; [|right; tauto]. destruct (IH x (fst e)) as [E2|E2]; [|right; tauto]. unfold member. destruct (Z.lt_decidable 0 (weight g e)); [left; auto|right; tauto].
    + left. cbn [fst snd] in *. subst. econstructor; eauto.
    + right. intros W. inversion W as [|k' x' y z' V He]; subst. apply Hn. exists (y, z). split; [apply member_in; auto|]. auto.
Qed.
Lemma least_walk g (R : N -> Prop) n : (forall d, (exists r, R r /\ walk g d r n) \/ ~ (exists r, R r /\ walk g d r n)) ->
  forall d r, R r -> walk g d r n -> exists d' r', R r' /\ walk g d' r' n /\ forall r'' d'', R r'' -> walk g d'' r'' n -> (d' <= d'')%nat.
Proof.
  intros Hdec d r Hr W.
  assert (G : forall b, (exists d' r', R r' /\ walk g d' r' n /\ (d' < b)%nat /\ forall r'' d'', R r'' -> walk g d'' r'' n -> (d' <= d'')%nat) \/ (forall d', (d' < b)%nat -> ~ exists r', R r' /\ walk g d' r' n)).
  { induction b as [|b IH]; [right; intros; lia|]. destruct IH as [(d' & r' & H1 & H2 & H3 & H4)|IH].
    - left. exists d', r'. repeat split; auto.
    - destruct (Hdec b) as [(r' & H1 & H2)|Hn].
      + left. exists b, r'. repeat split; auto. intros r'' d'' Hr'' W''. destruct (Nat.le_gt_cases b d''); [auto|]. exfalso. eapply IH; eauto.
      + right. intros d' Hd'. destruct (Nat.eq_dec d' b) as [->|Hne]; [auto|]. apply IH. lia. }
  destruct (G (S d)) as [(d' & r' & H1 & H2 & _ & H4)|H]; [eauto|]. exfalso. eapply (H d); [lia|eauto].
Qed.
End Walks.

Lemma nat_le (a b : nat) : le a b <-> (a <= b)%nat.
Proof. unfold le. cbn. apply Nat.compare_le_iff. Qed.

Section Exact.
Context {N L : Type} {ON : Ord N} {OL : Ord L}.
Lemma least_iff {A} {OA : Ord A} (P Q : A -> Prop) a : (forall a, P a <-> Q a) -> least P a <-> least Q a.
Proof. intros H. unfold least. split; intros [H1 H2]; (split; [apply H; auto|]); intros b Hb; apply H2, H; auto. Qed.
Lemma least_unique {A} {OA : Ord A} (P : A -> Prop) a b : least P a -> least P b -> a = b.
Proof. intros [H1 H2] [H3 H4]. apply le_antisym; auto. Qed.
Lemma holds_iff {D} {OD : Ord D} (c : coll D) (P Q : D -> Prop) : (forall d, P d <-> Q d) -> holds_exactly c P -> holds_exactly c Q.
Proof. intros H HP d. rewrite <- H. auto. Qed.
Lemma holds_member {D} {OD : Ord D} (c : coll D) (P : D -> Prop) d : holds_exactly c P -> member c d <-> P d.
Proof. intros H. unfold member. destruct (H d) as [[H1 H2]|[H1 H2]]; rewrite H2; split; intros; auto; try lia; contradiction. Qed.
Lemma holds_same {D} {OD : Ord D} (c c' : coll D) (P : D -> Prop) : holds_exactly c P -> holds_exactly c' P -> same_weights c c'.
Proof. intros H H' d. destruct (H d) as [[H1 H2]|[H1 H2]], (H' d) as [[H3 H4]|[H3 H4]]; try contradiction; congruence. Qed.
Lemma covers_iff (P Q : N -> L -> Prop) c : (forall n l, P n l <-> Q n l) -> covers P c -> covers Q c.
Proof. intros H (C1 & C2 & C3). split; [auto|]. split; [intros n l Hm; apply H; auto|]. intros n l Hq. apply C3, H. auto. Qed.
End Exact.

Section Bfs.
Context {N : Type} {ON : Ord N}.
Variables (edges : coll (N * N)) (roots : coll N).
Hypotheses (EN : nonneg edges) (RN : nonneg roots).

Definition within (r : nat) (n : N) (d : nat) : Prop := (d <= r)%nat /\ exists m, member roots m /\ walk edges d m n.
Local Notation nodes := (k_map (fun x => (x, 0%nat)) roots).
Lemma bfs_nodes : nonneg nodes /\ forall n l, member nodes (n, l) <-> l = 0%nat /\ member roots n.
Proof.
  assert (G : forall n l, 0 <= weight nodes (n, l) /\ (member nodes (n, l) <-> l = 0%nat /\ member roots n)).
  { intros n l. destruct (p_map (fun x => (x, 0%nat)) roots (n, l) RN) as [H1 H2]. split; [auto|]. unfold member. rewrite H2. split.
    - intros (d & H & E0). injection E0 as <- <-. auto.
    - intros (-> & H). eauto. }
  split; [intros [n l]; apply G|intros n l; apply G].
Qed.
Lemma bfs_ok r : covers (within r) (k_iterate r (bfs_body edges nodes) nodes) /\ (0 < r -> exactly_least (within r) (k_iterate r (bfs_body edges nodes) nodes))%nat.
Proof.
  destruct bfs_nodes as [NN NM]. induction r as [|r [IH _]].
  - split; [|lia]. cbn [k_iterate]. split; [auto|]. split.
    + intros n l H. apply NM in H as [-> H]. split; [lia|]. exists n. split; [auto|constructor].
    + intros n l (Hl & m & Hm & W). assert (l = 0%nat) by lia. subst l. inversion W; subst. exists 0%nat. split; [apply le_refl|]. apply NM. auto.
  - cbn [k_iterate]. destruct (spread_ok edges (fun l => l + 1)%nat EN) with (P := within r) (Q := fun n l => l = 0%nat /\ member roots n) (c := k_iterate r (bfs_body edges nodes) nodes) (src := nodes) as [H1 H2]; auto.
    { intros a b. rewrite !nat_le. lia. }
    assert (HI : forall n l, next_claims edges (fun l => l + 1)%nat (within r) (fun n l => l = 0%nat /\ member roots n) n l <-> within (S r) n l).
    { intros n l. split.
      - intros [(m & l' & (Hl & x & Hx & W) & He & ->)|[-> H]].
        + split; [lia|]. exists x. split; [auto|]. rewrite Nat.add_1_r. econstructor; eauto.
        + split; [lia|]. exists n. split; [auto|constructor].
      - intros (Hl & x & Hx & W). destruct l as [|l]; [right; inversion W; subst; auto|left].
        inversion W as [|k a y z V He]; subst. exists y, l. split; [split; [lia|eauto]|]. split; [auto|lia]. }
    split; [eapply covers_iff; eauto|]. intros _. eapply holds_iff; [|exact H1]. intros [n l]. cbn [fst snd]. apply least_iff. intros; apply HI.
Qed.
Lemma bfs_bounded n d : (exists m, member roots m /\ walk edges d m n) -> exists d', (d' <= length edges)%nat /\ (d' <= d)%nat /\ (exists m, member roots m /\ walk edges d' m n) /\ forall r'' d'', member roots r'' -> walk edges d'' r'' n -> (d' <= d'')%nat.
Proof.
  intros (m & Hm & W). destruct (least_walk edges (member roots) n) with (d := d) (r := m) as (d' & r' & H1 & H2 & H3); auto.
  - intros k. destruct (in_dec' (fun r => member roots r /\ walk edges k r n) (map fst roots)) as [(r & _ & Hr)|Hn].
    + intros r. unfold member. destruct (Z.lt_decidable 0 (weight roots r)); [|right; tauto]. destruct (walk_dec edges k r n); tauto.
    + left. eauto.
    + right. intros (r & Hr & Wr). apply Hn. exists r. split; [|auto]. destruct (in_dec eq_dec r (map fst roots)) as [|Hni]; [auto|]. unfold member in Hr. rewrite weight_notin in Hr; [zd; lia|auto].
  - exists d'. split; [|split; [eauto|split; [eauto|auto]]]. rewrite <- (map_length fst edges). eapply (shortest_bound edges (member roots)); eauto. intros e He. apply member_in. auto.
Qed.
Lemma bfs_limit rounds : (length edges <= rounds)%nat -> (0 < rounds)%nat -> holds_exactly (k_iterate rounds (bfs_body edges nodes) nodes) (fun nd => distance edges roots (fst nd) (snd nd)).
Proof.
  intros HL H0. destruct (bfs_ok rounds) as [_ H]. eapply holds_iff; [|apply H; auto]. intros [n d]. cbn [fst snd]. unfold distance. split.
  - intros [(H1 & H2) H3]. split; [auto|]. intros b Hb. destruct (bfs_bounded n b Hb) as (d' & L1 & L2 & L3 & _). eapply le_trans; [apply H3|apply nat_le; eauto]. split; [lia|auto].
  - intros [H1 H2]. destruct (bfs_bounded n d H1) as (d' & L1 & L2 & L3 & L4). assert (d' = d). { specialize (H2 d' L3). apply nat_le in H2. lia. } subst d'.
    split; [split; [lia|auto]|]. intros b [_ Hb]. auto.
Qed.
End Bfs.

Section Propagate.
Context {N L : Type} {ON : Ord N} {OL : Ord L}.
Variables (edges : coll (N * N)) (nodes : coll (N * L)) (logic : L -> BinNums.N).
Hypotheses (EN : nonneg edges) (NN : nonneg nodes).

(* a label is claimed if it has had the rounds to get there *)
Definition arrived (r : nat) (n : N) (l : L) : Prop := exists m k, member nodes (m, l) /\ walk edges k m n /\ (pg_round logic l + k <= r)%nat.
Lemma pg_nodes r : nonneg (k_filter (fun x => (pg_round logic (snd x) <=? r)%nat) nodes) /\
  forall n l, member (k_filter (fun x => (pg_round logic (snd x) <=? r)%nat) nodes) (n, l) <-> member nodes (n, l) /\ (pg_round logic l <= r)%nat.
Proof.
  split.
  - intros [n l]. rewrite w_filter. cbn [snd]. destruct (_ <=? _)%nat; [apply NN|lia].
  - intros n l. unfold member. rewrite w_filter. cbn [snd]. destruct (Nat.leb_spec (pg_round logic l) r); split; intros; lia.
Qed.
Lemma propagate_ok r : covers (arrived r) (propagate_core r edges nodes logic) /\ exactly_least (arrived r) (propagate_core r edges nodes logic).
Proof.
  induction r as [|r [IH _]]; cbn [propagate_core]; unfold pg_labels; [|unfold pg_propagate]; destruct (pg_nodes 0) as [N0 M0].
  - change (@nil (N * L * Z)) with (k_join_map (fun (_ : N) (l : L) (d : N) => (d, l)) (@nil (N * L * Z)) edges).
    destruct (spread_ok edges (fun l : L => l) EN) with (P := fun (_ : N) (_ : L) => False) (Q := fun n l => member nodes (n, l) /\ (pg_round logic l <= 0)%nat) (c := @nil (N * L * Z)) (src := k_filter (fun x => (pg_round logic (snd x) <=? 0)%nat) nodes) as [H1 H2]; auto.
    { split; [intros x; cbn; zd; lia|]. split; [intros n l H; unfold member in H; cbn in H; zd; lia|tauto]. }
    assert (HI : forall n l, next_claims edges (fun l : L => l) (fun (_ : N) (_ : L) => False) (fun n l => member nodes (n, l) /\ (pg_round logic l <= 0)%nat) n l <-> arrived 0 n l).
    { intros n l. split.
      - intros [(m & l' & [] & _)|[H H']]. exists n, 0%nat. split; [auto|]. split; [constructor|lia].
      - intros (m & k & Hm & W & Hk). right. assert (k = 0%nat) by lia. subst k. inversion W; subst. split; [auto|lia]. }
    split; [eapply covers_iff; eauto|]. eapply holds_iff; [|exact H1]. intros [n l]. cbn [fst snd]. apply least_iff. intros; apply HI.
  - destruct (pg_nodes (S r)) as [N1 M1].
    destruct (spread_ok edges (fun l : L => l) EN) with (P := arrived r) (Q := fun n l => member nodes (n, l) /\ (pg_round logic l <= S r)%nat) (c := propagate_core r edges nodes logic) (src := k_filter (fun x => (pg_round logic (snd x) <=? S r)%nat) nodes) as [H1 H2]; auto.
    assert (HI : forall n l, next_claims edges (fun l : L => l) (arrived r) (fun n l => member nodes (n, l) /\ (pg_round logic l <= S r)%nat) n l <-> arrived (S r) n l).
    { intros n l. split.
      - intros [(m & l' & (x & k & Hx & W & Hk) & He & ->)|[H H']].
        + exists x, (S k). split; [auto|]. split; [econstructor; eauto|lia].
        + exists n, 0%nat. split; [auto|]. split; [constructor|lia].
      - intros (m & k & Hm & W & Hk). inversion W as [|k' a y z V He]; subst; [right; split; [auto|lia]|left].
        exists y, l. split; [|auto]. exists m, k'. split; [auto|]. split; [auto|lia]. }
    split; [eapply covers_iff; eauto|]. eapply holds_iff; [|exact H1]. intros [n l]. cbn [fst snd]. apply least_iff. intros; apply HI.
Qed.
Lemma walk_bounded (es : list (N * N)) : (forall e, member edges e -> In e es) -> forall m n, reaches edges m n -> exists k, (k <= length es)%nat /\ walk edges k m n.
Proof.
  intros Hes m n [k W]. destruct (least_walk edges (eq m) n) with (d := k) (r := m) as (d' & r' & <- & H2 & H3); auto.
  - intros d. destruct (walk_dec edges d m n) as [H|H]; [left; eauto|right; intros (r & <- & Wr); auto].
  - exists d'. split; [|auto]. eapply (shortest_bound edges (eq m)); eauto.
Qed.
Lemma propagate_limit (es : list (N * N)) rounds : (forall e, member edges e -> In e es) ->
  (forall m l, member nodes (m, l) -> pg_round logic l + length es <= rounds)%nat ->
  holds_exactly (propagate_core rounds edges nodes logic) (fun nl => least_label edges nodes (fst nl) (snd nl)).
Proof.
  intros Hes HL. destruct (propagate_ok rounds) as [_ H]. eapply holds_iff; [|exact H]. intros [n l]. cbn [fst snd]. apply least_iff. intros a. split.
  - intros (m & k & Hm & W & _). exists m. split; [auto|]. exists k. auto.
  - intros (m & Hm & W). destruct (walk_bounded es Hes m n W) as (k & Hk & W'). exists m, k. split; [auto|]. split; [auto|]. specialize (HL _ _ Hm). lia.
Qed.
Lemma propagate_some (es : list (N * N)) rounds n m l : (forall e, member edges e -> In e es) ->
  (forall m l, member nodes (m, l) -> pg_round logic l + length es <= rounds)%nat ->
  member nodes (m, l) -> reaches edges m n -> exists l', member (propagate_core rounds edges nodes logic) (n, l').
Proof.
  intros Hes HL Hm W. destruct (propagate_ok rounds) as [(_ & _ & H) _]. destruct (walk_bounded es Hes m n W) as (k & Hk & W').
  destruct (H n l) as (l' & _ & H'); [|eauto]. exists m, k. split; [auto|]. split; [auto|]. specialize (HL _ _ Hm). lia.
Qed.
End Propagate.
