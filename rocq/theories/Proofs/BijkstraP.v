(** Searching from both ends. *)
From Verif Require Import Base.Collections Spec.GraphSpec Spec.PrefixSumSpec Model.GraphM Proofs.ConsolidationP Proofs.OperatorsP Proofs.GraphP.
Local Open Scope Z_scope.

Section Next.
Context {N : Type} {ON : Ord N}.
Local Notation dists := (coll (N * (N * nat))).

Lemma next_ok (active : coll N) (edges : coll (N * N)) (f : dists) : nonneg edges -> nonneg f ->
  let claim n s d := member f (n, (s, d)) \/ exists m d0, member f (m, (s, d0)) /\ member active s /\ member edges (m, n) /\ d = (d0 + 1)%nat in
  nonneg (bd_next active edges f) /\
  (forall n s d, member (bd_next active edges f) (n, (s, d)) -> claim n s d) /\
  (forall n s d, claim n s d -> exists d', (d' <= d)%nat /\ member (bd_next active edges f) (n, (s, d'))).
Proof.
  intros EN FN claim. unfold bd_next. set (sj := k_map _ (k_semijoin _ _)). set (j := k_join_map _ sj edges). set (c := k_map _ (k_concat j f)). set (r := k_reduce _ c).
  assert (SW : forall m s d, weight sj (m, (s, d)) = weight f (m, (s, d)) * (if 0 <? weight active s then 1 else 0)).
  { intros m s d. unfold sj.
    rewrite (w_map_inj (fun x : N * (N * nat) => let '(src, (med, dist)) := x in (med, (src, dist))) _ (s, (m, d))) by (intros [a [b e]] H; injection H as -> -> ->; auto).
    rewrite w_semijoin, w_distinct.
    rewrite (w_map_inj (fun x : N * (N * nat) => let '(med, (src, dist)) := x in (src, (med, dist))) f (m, (s, d))) by (intros [a [b e]] H; injection H as -> -> ->; auto). reflexivity. }
  assert (SN : nonneg sj). { intros [m [s d]]. rewrite SW. specialize (FN (m, (s, d))). destruct (0 <? _); lia. }
  assert (SM : forall m s d, member sj (m, (s, d)) <-> member f (m, (s, d)) /\ member active s).
  { intros m s d. unfold member. rewrite SW. destruct (Z.ltb_spec 0 (weight active s)); lia. }
  assert (JM : forall n s d, 0 <= weight j (n, (s, d)) /\ (member j (n, (s, d)) <-> exists m d0, member f (m, (s, d0)) /\ member active s /\ member edges (m, n) /\ d = (d0 + 1)%nat)).
  { intros n s d. destruct (p_join (fun (_ : N) (sd : N * nat) next => (next, (fst sd, (snd sd + 1)%nat))) sj edges (n, (s, d)) SN EN) as [J1 J2]. split; [exact J1|].
    unfold member at 1. fold j in J2. rewrite J2. split.
    - intros (m & [s' d0] & n' & H1 & H2 & H3). cbn [fst snd] in H3. injection H3 as -> -> <-. exists m, d0. apply SM in H1 as [H1 H1']. auto.
    - intros (m & d0 & H1 & H2 & H3 & ->). exists m, (s, d0), n. split; [apply SM; auto|]. auto. }
  assert (CW : forall n s d, weight c ((n, s), d) = weight j (n, (s, d)) + weight f (n, (s, d))).
  { intros n s d. unfold c.
    rewrite (w_map_inj (fun x : N * (N * nat) => let '(next, (src, dist)) := x in ((next, src), dist)) _ (n, (s, d))) by (intros [a [b e]] H; injection H as -> -> ->; auto).
    apply w_concat. }
  assert (CN : nonneg c). { intros [[n s] d]. rewrite CW. specialize (FN (n, (s, d))). destruct (JM n s d). lia. }
  assert (CM : forall n s d, member c ((n, s), d) <-> claim n s d).
  { intros n s d. unfold claim. destruct (JM n s d) as [J1 J2]. rewrite <- J2. unfold member. rewrite CW. specialize (FN (n, (s, d))). lia. }
  assert (RW : forall n s d, weight (k_map (fun x : N * N * nat => let '((next, src), dist) := x in (next, (src, dist))) r) (n, (s, d)) = weight r ((n, s), d)).
  { intros n s d. apply (w_map_inj (fun x : N * N * nat => let '((next, src), dist) := x in (next, (src, dist))) r ((n, s), d)). intros [[a b] e] H; injection H as -> -> ->; auto. }
  split; [|split].
  - intros [n [s d]]. rewrite RW. destruct (reduce_least c (n, s) d CN) as [[H _]|[H _]]; unfold r; rewrite H; lia.
  - intros n s d H. unfold member in H. rewrite RW in H. apply CM. destruct (reduce_least c (n, s) d CN) as [[_ [H' _]]|[H' _]]; [auto|unfold r in H; lia].
  - intros n s d H. apply CM in H. destruct (least_exists c (n, s) d CN H) as (d' & H1 & H2). exists d'. split; [apply nat_le; auto|].
    unfold member. rewrite RW. destruct (reduce_least c (n, s) d' CN) as [[H' _]|[_ H']]; [unfold r; lia|contradiction].
Qed.
End Next.

Section Both.
Context {N : Type} {ON : Ord N}.
Variables (edges goals : coll (N * N)).
Hypotheses (EN : nonneg edges) (GN : nonneg goals).
Local Notation redges := (k_map (fun x : N * N => (snd x, fst x)) edges).

Lemma redges_w x y : weight redges (y, x) = weight edges (x, y).
Proof. apply (w_map_inj (fun x : N * N => (snd x, fst x)) edges (x, y)). intros [a b] H. cbn [fst snd] in H. injection H as -> ->. auto. Qed.
Lemma redges_nonneg : nonneg redges. Proof. intros [y x]. rewrite redges_w. apply EN. Qed.
Lemma walk_reverse k : forall x y, walk redges k x y -> walk edges k y x.
Proof.
  induction k as [|k IH]; intros x y W; inversion W as [|k' a z w V He]; subst; [constructor|]. apply IH in V.
  change (S k) with (1 + k)%nat. eapply walk_app; [|exact V]. econstructor; [constructor|]. unfold member in *. rewrite redges_w in He. auto.
Qed.
Lemma walk_reverse' k : forall x y, walk edges k x y -> walk redges k y x.
Proof.
  induction k as [|k IH]; intros x y W; inversion W as [|k' a z w V He]; subst; [constructor|]. apply IH in V.
  change (S k) with (1 + k)%nat. eapply walk_app; [|exact V]. econstructor; [constructor|]. unfold member in *. rewrite redges_w. auto.
Qed.
Lemma walk_split k : forall x z a b, walk edges k x z -> k = (a + b)%nat -> exists y, walk edges a x y /\ walk edges b y z.
Proof.
  intros x z a b W ->. revert z W. induction b as [|b IH]; intros z W.
  - rewrite Nat.add_0_r in W. exists z. split; [auto|constructor].
  - rewrite Nat.add_succ_r in W. inversion W as [|k' a' y z' V He]; subst. destruct (IH y V) as (w & H1 & H2). exists w. split; [auto|]. econstructor; eauto.
Qed.

Local Notation F r := (fst (bd_rounds r edges redges goals)).
Local Notation R r := (snd (bd_rounds r edges redges goals)).
Local Notation pairs r := (k_join_map (fun _ (s : N * nat) (t : N * nat) => ((fst s, fst t), (snd s + snd t)%nat)) (F r) (R r)).
(* one of the two searches, and what it has found *)
Record search_ok (g : coll (N * N)) (f : coll (N * (N * nat))) (r : nat) : Prop := {
  so_nonneg : nonneg f;
  so_sound : forall n s d, member f (n, (s, d)) -> (d <= r)%nat /\ walk g d s n }.
Lemma rounds_ok r : search_ok edges (F r) r /\ search_ok redges (R r) r.
Proof.
  induction r as [|r [IF IR]].
  - cbn [bd_rounds fst snd]. split; split.
    + intros e. destruct (p_map (fun g : N * N => (fst g, (fst g, 0%nat))) goals e GN). auto.
    + intros n s d H. destruct (p_map (fun g : N * N => (fst g, (fst g, 0%nat))) goals (n, (s, d)) GN) as [_ P]. apply P in H as ([a b] & _ & H). cbn [fst] in H. injection H as -> -> <-. split; [lia|constructor].
    + intros e. destruct (p_map (fun g : N * N => (snd g, (snd g, 0%nat))) goals e GN). auto.
    + intros n s d H. destruct (p_map (fun g : N * N => (snd g, (snd g, 0%nat))) goals (n, (s, d)) GN) as [_ P]. apply P in H as ([a b] & _ & H). cbn [snd] in H. injection H as -> -> <-. split; [lia|constructor].
  - cbn [bd_rounds]. unfold bd_round. cbn [fst snd]. set (act := bd_active _ _). split.
    + destruct (next_ok (k_map fst act) edges (F r) EN (so_nonneg _ _ _ IF)) as (H1 & H2 & _). split; [auto|]. intros n s d H. apply H2 in H as [H|(m & d0 & Hm & _ & He & ->)].
      * apply (so_sound _ _ _ IF) in H as [H H']. split; [lia|auto].
      * apply (so_sound _ _ _ IF) in Hm as [H H']. split; [lia|]. rewrite Nat.add_1_r. econstructor; eauto.
    + destruct (next_ok (k_map snd act) redges (R r) redges_nonneg (so_nonneg _ _ _ IR)) as (H1 & H2 & _). split; [auto|]. intros n s d H. apply H2 in H as [H|(m & d0 & Hm & _ & He & ->)].
      * apply (so_sound _ _ _ IR) in H as [H H']. split; [lia|auto].
      * apply (so_sound _ _ _ IR) in Hm as [H H']. split; [lia|]. rewrite Nat.add_1_r. econstructor; eauto.
Qed.
Lemma pairs_ok r : nonneg (pairs r) /\ forall s t d, member (pairs r) ((s, t), d) <-> exists n d1 d2, member (F r) (n, (s, d1)) /\ member (R r) (n, (t, d2)) /\ d = (d1 + d2)%nat.
Proof.
  destruct (rounds_ok r) as [[FN _] [RN _]].
  assert (G : forall e, 0 <= weight (pairs r) e /\ (member (pairs r) e <-> exists k v1 v2, 0 < weight (F r) (k, v1) /\ 0 < weight (R r) (k, v2) /\ ((fst v1, fst v2), (snd v1 + snd v2)%nat) = e)).
  { intros e. apply (p_join (fun (_ : N) (s : N * nat) (t : N * nat) => ((fst s, fst t), (snd s + snd t)%nat)) (F r) (R r) e FN RN). }
  split; [intros e; apply G|]. intros s t d. rewrite (proj2 (G _)). split.
  - intros (n & [s' d1] & [t' d2] & H1 & H2 & H3). cbn [fst snd] in H3. injection H3 as -> -> <-. exists n, d1, d2. auto.
  - intros (n & d1 & d2 & H1 & H2 & ->). exists n, (s, d1), (t, d2). auto.
Qed.
Definition met r s t : Prop := exists d, member (pairs r) ((s, t), d).
Lemma met_dec r s t : met r s t \/ ~ met r s t.
Proof.
  destruct (pairs_ok r) as [PN _]. pose proof (in_values (pairs r) (s, t)) as HI. destruct (k_values (pairs r) (s, t)) as [|x l] eqn:E0.
  - right. intros (d & Hd). unfold member in Hd. assert (H : In d (map fst (@nil (nat * Z)))) by (rewrite <- E0 in *; apply HI; lia). destruct H.
  - left. exists (fst x). unfold member. assert (H : weight (pairs r) ((s, t), fst x) <> 0) by (apply HI; left; auto). specialize (PN ((s, t), fst x)). lia.
Qed.
Lemma reached_w r s t d : weight (bd_reached goals (F r) (R r)) ((s, t), d) = weight (k_reduce least_value (pairs r)) ((s, t), d) * weight goals (s, t).
Proof. unfold bd_reached. apply w_semijoin. Qed.
Lemma active_w r s t : weight (bd_active goals (bd_reached goals (F r) (R r))) (s, t) = weight goals (s, t) - lsum (fun x w => if eqb (fst x) (s, t) then w else 0) (bd_reached goals (F r) (R r)).
Proof.
  unfold bd_active. rewrite (consolidate_weight _ (s, t)), w_concat, w_map_sum. unfold k_negate. 
  assert (G : forall l : coll (N * N * nat), lsum (fun x w => if eqb (fst x) (s, t) then w else 0) (map (fun x => (fst x, - snd x)) l) = - lsum (fun x w => if eqb (fst x) (s, t) then w else 0) l).
  { induction l as [|x l IH]; [reflexivity|]. cbn [map]. rewrite !lsum_cons', IH. cbn [fst snd]. zd. destruct (eqb _ _); lia. }
  rewrite G. lia.
Qed.
Lemma reached_sum r s t : (met r s t -> lsum (fun x w => if eqb (fst x) (s, t) then w else 0) (bd_reached goals (F r) (R r)) = weight goals (s, t)) /\
  (~ met r s t -> lsum (fun x w => if eqb (fst x) (s, t) then w else 0) (bd_reached goals (F r) (R r)) = 0).
Proof.
  destruct (pairs_ok r) as [PN _].
  assert (E0 : forall l : coll (N * N * nat), lsum (fun x w => if eqb (fst x) (s, t) then w else 0) l = lsum (fun x w => if eqb (fst x) (s, t) then w else 0) (k_filter (fun x => eqb (fst x) (s, t)) l)).
  { unfold k_filter. induction l as [|x l IH]; [reflexivity|]. rewrite lsum_cons', IH. cbn [filter]. destruct (eqb (fst (fst x)) (s, t)) eqn:Ex.
    - rewrite lsum_cons', Ex. reflexivity.
    - apply Z.add_0_l. }
  assert (SE : forall l' : coll (N * N * nat), same_weights (k_filter (fun x => eqb (fst x) (s, t)) (bd_reached goals (F r) (R r))) l' ->
            lsum (fun x w => if eqb (fst x) (s, t) then w else 0) (bd_reached goals (F r) (R r)) = lsum (fun x w => if eqb (fst x) (s, t) then w else 0) l').
  { intros l' H. rewrite E0. apply lsum_same_weights; [| |exact H]; intros x; intros; destruct (eqb _ _); auto. }
  split; intros HM.
  - destruct HM as (d0 & Hd0). destruct (least_exists (pairs r) (s, t) d0 PN Hd0) as (d & HL & _).
    rewrite (SE [(((s, t), d), weight goals (s, t))]).
    + unfold lsum. cbn [map dsum fst snd]. rewrite eqb_refl. cbn. zd. lia.
    + intros [[s' t'] d']. rewrite w_filter, weight_one. cbn [fst]. destruct (eqb_spec (s', t') (s, t)) as [Ep|Hp].
      * injection Ep as -> ->. rewrite reached_w. destruct (reduce_least (pairs r) (s, t) d' PN) as [[H1 H2]|[H1 H2]]; rewrite H1.
        -- assert (d' = d) by (eapply least_unique; eauto). subst d'. rewrite eqb_refl. lia.
        -- destruct (eqb_spec ((s, t), d) ((s, t), d')) as [Ed|]; [injection Ed as <-; contradiction|]. zd. lia.
      * destruct (eqb_spec ((s, t), d) ((s', t'), d')); [congruence|reflexivity].
  - rewrite (SE []); [reflexivity|]. intros [[s' t'] d']. rewrite w_filter, weight_nil. cbn [fst]. destruct (eqb_spec (s', t') (s, t)) as [Ep|Hp]; [|reflexivity].
    injection Ep as -> ->. rewrite reached_w. destruct (reduce_least (pairs r) (s, t) d' PN) as [[H1 [H2 _]]|[H1 H2]]; rewrite H1; [exfalso; apply HM; exists d'; auto|]. zd. lia.
Qed.
Lemma active_ok r : nonneg (bd_active goals (bd_reached goals (F r) (R r))) /\ forall s t, member goals (s, t) -> ~ met r s t ->
  member (k_map fst (bd_active goals (bd_reached goals (F r) (R r)))) s /\ member (k_map snd (bd_active goals (bd_reached goals (F r) (R r)))) t.
Proof.
  assert (AN : nonneg (bd_active goals (bd_reached goals (F r) (R r)))).
  { intros [s t]. rewrite active_w. destruct (reached_sum r s t) as [H1 H2]. pose proof (GN (s, t)) as G0. destruct (met_dec r s t) as [H|H]; [rewrite (H1 H)|rewrite (H2 H)]; lia. }
  split; [auto|]. intros s t Hg HM. 
  assert (HA : 0 < weight (bd_active goals (bd_reached goals (F r) (R r))) (s, t)). { rewrite active_w, (proj2 (reached_sum r s t) HM). unfold member in Hg. lia. }
  split; [apply (p_map fst _ s AN)|apply (p_map snd _ t AN)]; exists (s, t); auto.
Qed.
Definition complete (g : coll (N * N)) (f : coll (N * (N * nat))) r s : Prop := forall n d, (d <= r)%nat -> walk g d s n -> exists d', (d' <= d)%nat /\ member f (n, (s, d')).
Lemma both_ok r s t : member goals (s, t) ->
  (met r s t -> forall k, walk edges k s t -> exists d, (d <= k)%nat /\ member (pairs r) ((s, t), d)) /\
  (~ met r s t -> complete edges (F r) r s /\ complete redges (R r) r t).
Proof.
  intros Hg. induction r as [|r [IM IN]].
  - assert (CF : complete edges (F 0%nat) 0 s).
    { intros n d Hd W. assert (d = 0%nat) by lia. subst d. inversion W; subst. exists 0%nat. split; [lia|]. cbn [bd_rounds fst]. apply (p_map (fun g : N * N => (fst g, (fst g, 0%nat))) goals _ GN). exists (n, t). auto. }
    assert (CR : complete redges (R 0%nat) 0 t).
    { intros n d Hd W. assert (d = 0%nat) by lia. subst d. inversion W; subst. exists 0%nat. split; [lia|]. cbn [bd_rounds snd]. apply (p_map (fun g : N * N => (snd g, (snd g, 0%nat))) goals _ GN). exists (s, n). auto. }
    split; [|auto]. intros (d & Hd) k W. exists d. split; [|auto].
    apply (pairs_ok 0%nat) in Hd as (n & d1 & d2 & H1 & H2 & ->). destruct (rounds_ok 0%nat) as [[_ SF] [_ SR]]. apply SF in H1. apply SR in H2. lia.
  - destruct (rounds_ok r) as [[FN SF] [RN SR]]. destruct (active_ok r) as [AN AM].
    destruct (next_ok (k_map fst (bd_active goals (bd_reached goals (F r) (R r)))) edges (F r) EN FN) as (_ & _ & NF).
    destruct (next_ok (k_map snd (bd_active goals (bd_reached goals (F r) (R r)))) redges (R r) redges_nonneg RN) as (_ & _ & NR).
    assert (GF : forall n d, member (F r) (n, (s, d)) -> exists d', (d' <= d)%nat /\ member (F (S r)) (n, (s, d'))). { intros n d H. apply NF. left. auto. }
    assert (GR : forall n d, member (R r) (n, (t, d)) -> exists d', (d' <= d)%nat /\ member (R (S r)) (n, (t, d'))). { intros n d H. apply NR. left. auto. }
    destruct (met_dec r s t) as [HM|HM].
    + assert (GP : forall d, member (pairs r) ((s, t), d) -> exists d', (d' <= d)%nat /\ member (pairs (S r)) ((s, t), d')).
      { intros d H. apply (pairs_ok r) in H as (n & d1 & d2 & H1 & H2 & ->). destruct (GF _ _ H1) as (e1 & L1 & M1), (GR _ _ H2) as (e2 & L2 & M2).
        exists (e1 + e2)%nat. split; [lia|]. apply (pairs_ok (S r)). exists n, e1, e2. auto. }
      split.
      * intros _ k W. destruct (IM HM k W) as (d & Hd & Hp). destruct (GP _ Hp) as (d' & Hd' & Hp'). exists d'. split; [lia|auto].
      * intros HM'. exfalso. apply HM'. destruct HM as (d & Hd). destruct (GP _ Hd) as (d' & _ & Hp'). exists d'. auto.
    + destruct (IN HM) as [CF CR]. destruct (AM s t Hg HM) as [As At].
      assert (CF' : complete edges (F (S r)) (S r) s).
      { intros n d Hd W. destruct (Nat.le_gt_cases d r) as [Hl|Hgt].
        - destruct (CF n d Hl W) as (d' & L1 & M1). destruct (GF _ _ M1) as (d'' & L2 & M2). exists d''. split; [lia|auto].
        - assert (d = S r) by lia. subst d. inversion W as [|k' a y z V He]; subst. destruct (CF y r (le_n r) V) as (d' & L1 & M1).
          destruct (NF n s (d' + 1)%nat) as (d'' & L2 & M2); [right; exists y, d'; auto|]. exists d''. split; [lia|auto]. }
      assert (CR' : complete redges (R (S r)) (S r) t).
      { intros n d Hd W. destruct (Nat.le_gt_cases d r) as [Hl|Hgt].
        - destruct (CR n d Hl W) as (d' & L1 & M1). destruct (GR _ _ M1) as (d'' & L2 & M2). exists d''. split; [lia|auto].
        - assert (d = S r) by lia. subst d. inversion W as [|k' a y z V He]; subst. destruct (CR y r (le_n r) V) as (d' & L1 & M1).
          destruct (NR n t (d' + 1)%nat) as (d'' & L2 & M2); [right; exists y, d'; auto|]. exists d''. split; [lia|auto]. }
      split; [|auto]. intros (d & Hd) k W. destruct (rounds_ok (S r)) as [[_ SF'] [_ SR']].
      destruct (Nat.le_gt_cases k (S r + S r)) as [Hk|Hk].
      * destruct (walk_split k s t (Nat.min k (S r)) (k - Nat.min k (S r)) W) as (y & W1 & W2); [lia|].
        destruct (CF' y (Nat.min k (S r))) as (d1 & L1 & M1); [lia|auto|]. destruct (CR' y (k - Nat.min k (S r))%nat) as (d2 & L2 & M2); [lia|apply walk_reverse'; auto|].
        exists (d1 + d2)%nat. split; [lia|]. apply (pairs_ok (S r)). exists y, d1, d2. auto.
      * exists d. split; [|auto]. apply (pairs_ok (S r)) in Hd as (n & d1 & d2 & H1 & H2 & ->). apply SF' in H1. apply SR' in H2. lia.
Qed.
Lemma pairs_walk r s t d : member (pairs r) ((s, t), d) -> walk edges d s t.
Proof.
  intros H. apply (pairs_ok r) in H as (n & d1 & d2 & H1 & H2 & ->). destruct (rounds_ok r) as [[_ SF] [_ SR]]. apply SF in H1 as [_ H1]. apply SR in H2 as [_ H2].
  eapply walk_app; [exact H1|]. apply walk_reverse. auto.
Qed.
Lemma bidijkstra_ok rounds s t d : (length edges <= rounds)%nat ->
  (least (fun d => walk edges d s t) d -> weight (bidijkstra rounds edges goals) ((s, t), d) = weight goals (s, t)) /\
  (~ least (fun d => walk edges d s t) d -> weight (bidijkstra rounds edges goals) ((s, t), d) = 0).
Proof.
  intros HL. unfold bidijkstra. destruct (bd_rounds rounds edges redges goals) as [f0 r0] eqn:E0. assert (Ef : f0 = F rounds) by (rewrite E0; auto). assert (Er : r0 = R rounds) by (rewrite E0; auto). rewrite Ef, Er. clear Ef Er E0 f0 r0.
  rewrite reached_w. destruct (pairs_ok rounds) as [PN _].
  destruct (Z.eq_dec (weight goals (s, t)) 0) as [Z0|Z0]; [rewrite Z0; split; intros; lia|].
  assert (Hg : member goals (s, t)) by (unfold member; pose proof (GN (s, t)); lia).
  destruct (both_ok rounds s t Hg) as [B1 B2].
  assert (Q : forall k, walk edges k s t -> exists d, (d <= k)%nat /\ member (pairs rounds) ((s, t), d)).
  { intros k W. destruct (met_dec rounds s t) as [HM|HM]; [auto|]. exfalso. destruct (B2 HM) as [CF CR].
    destruct (walk_bounded edges (map fst edges) (fun e => member_in edges e) s t) as (k' & Hk' & W'); [exists k; auto|]. rewrite map_length in Hk'.
    destruct (CF t k') as (d1 & L1 & M1); [lia|auto|]. destruct (CR t 0%nat) as (d2 & L2 & M2); [lia|constructor|].
    apply HM. exists (d1 + d2)%nat. apply (pairs_ok rounds). exists t, d1, d2. auto. }
  assert (LI : least (fun d => walk edges d s t) d <-> least (fun d => member (pairs rounds) ((s, t), d)) d).
  { split; intros [H1 H2]; split.
    - destruct (Q d H1) as (d' & L1 & M1). assert (d' = d). { apply pairs_walk in M1 as W'. apply H2 in W'. apply nat_le in W'. lia. } subst. auto.
    - intros b Hb. apply H2. eapply pairs_walk; eauto.
    - eapply pairs_walk; eauto.
    - intros b Hb. destruct (Q b Hb) as (d' & L1 & M1). apply H2 in M1. apply nat_le in M1. apply nat_le. lia. }
  rewrite LI. destruct (reduce_least (pairs rounds) (s, t) d PN) as [[H1 H2]|[H1 H2]]; rewrite H1; split; intros; try contradiction; lia.
Qed.
End Both.
