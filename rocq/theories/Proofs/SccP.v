(** Strongly connected components. *)
From Verif Require Import Base.Collections Spec.GraphSpec Spec.PrefixSumSpec Model.GraphM Proofs.ConsolidationP Proofs.OperatorsP Proofs.GraphP.
Local Open Scope Z_scope.

Section Functional.
Context {K V : Type} {OK : Ord K} {OV : Ord V}.
(* the value of a key in a collection with at most one for each *)
Definition value_of (c : coll (K * V)) (k : K) : option V := match k_values c k with x :: _ => Some (fst x) | [] => None end.
Lemma value_of_ok (c : coll (K * V)) (P : K * V -> Prop) : holds_exactly c P -> (forall k v v', P (k, v) -> P (k, v') -> v = v') ->
  (forall k v, value_of c k = Some v <-> P (k, v)) /\ forall k, same_weights (map (fun x => (snd (fst x), snd x)) (filter (fun x => eqb (fst (fst x)) k) c)) (match value_of c k with Some v => [(v, 1)] | None => [] end).
Proof.
  intros HP HU.
  assert (HV : forall k v, value_of c k = Some v <-> P (k, v)).
  { intros k v. unfold value_of. pose proof (in_values c k) as HI. 
    assert (HM : forall v, In v (map fst (k_values c k)) <-> P (k, v)). { intros v'. rewrite HI. destruct (HP (k, v')) as [[H1 H2]|[H1 H2]]; rewrite H2; split; intros; auto; try lia; contradiction. }
    destruct (k_values c k) as [|x l]; [split; [discriminate|intros H; apply HM in H; destruct H]|]. split.
    - intros H. injection H as <-. apply HM. left. auto.
    - intros H. f_equal. apply (HU k); [apply HM; left; auto|auto]. }
  split; [auto|]. intros k v. rewrite <- (consolidate_weight (map _ _) v). change (weight (k_values c k) v = weight (match value_of c k with Some v => [(v, 1)] | None => [] end) v). rewrite w_values.
  destruct (value_of c k) as [v0|] eqn:E0.
  - rewrite weight_one. destruct (eqb_spec v0 v) as [->|Hne].
    + apply HV in E0. destruct (HP (k, v)) as [[H1 H2]|[H1 H2]]; [auto|contradiction].
    + destruct (HP (k, v)) as [[H1 H2]|[H1 H2]]; [|auto]. apply HV in H1. congruence.
  - rewrite weight_nil. destruct (HP (k, v)) as [[H1 H2]|[H1 H2]]; [|auto]. apply HV in H1. congruence.
Qed.
End Functional.

Section JoinLabels.
Context {K V1 V2 E : Type} {OK : Ord K} {O1 : Ord V1} {O2 : Ord V2} {OE : Ord E}.
Lemma join_functional (f : K -> V1 -> V2 -> E) (c : coll (K * V1)) (labels : coll (K * V2)) (P : K * V2 -> Prop) :
  holds_exactly labels P -> (forall k v v', P (k, v) -> P (k, v') -> v = v') ->
  same_weights (k_join_map f c labels) (k_flat_map (fun kv => match value_of labels (fst kv) with Some l => [f (fst kv) (snd kv) l] | None => [] end) c).
Proof.
  intros HP HU. destruct (value_of_ok labels P HP HU) as [_ HS]. unfold k_join_map, k_flat_map. induction c as [|[[k v] r] c IH]; [intros e; reflexivity|].
  intros e. cbn [flat_map fst snd]. rewrite !weight_app, IH. f_equal. clear IH.
  specialize (HS k).
  transitivity (weight (map (fun x => (f k v (fst x), Z.mul r (snd x))) (map (fun x : K * V2 * Z => (snd (fst x), snd x)) (filter (fun x => eqb (fst (fst x)) k) labels))) e); [rewrite map_map; reflexivity|].
  revert HS. generalize (map (fun x : K * V2 * Z => (snd (fst x), snd x)) (filter (fun x => eqb (fst (fst x)) k) labels)). intros l HS.
  assert (G : forall l' : list (V2 * Z), weight (map (fun x => (f k v (fst x), r * snd x)) l') e = lsum (fun d w => if eqb (f k v d) e then r * w else 0) l').
  { clear. induction l' as [|x l' IH]; [reflexivity|]. cbn [map]. rewrite weight_cons', IH, lsum_cons'. reflexivity. }
  rewrite G. transitivity (lsum (fun d w => if eqb (f k v d) e then r * w else 0) (match value_of labels k with Some v => [(v, 1)] | None => [] end)).
  - apply lsum_same_weights; [| |exact HS].
    + intros x. destruct (eqb _ _); cbn; zd; lia.
    + intros x a b. destruct (eqb _ _); cbn; zd; lia.
  - rewrite <- G. destruct (value_of labels k) as [l0|]; [|reflexivity]. cbn [map fst snd]. rewrite Z.mul_1_r. reflexivity.
Qed.
End JoinLabels.

Lemma flat_map_same {D E} {OD : Ord D} {OE : Ord E} (f : D -> list E) (c c' : coll D) : same_weights c c' -> same_weights (k_flat_map f c) (k_flat_map f c').
Proof.
  intros H e. rewrite !w_flat_map_sum. apply lsum_same_weights; [| |exact H].
  - intros d. induction (f d) as [|x l IH]; [reflexivity|]. cbn [map]. rewrite dsum_cons, IH. destruct (eqb _ _); reflexivity.
  - intros d a b. induction (f d) as [|x l IH]; [reflexivity|]. cbn [map]. rewrite !dsum_cons, IH. zd. destruct (eqb _ _); lia.
Qed.

Section Trim.
Context {N : Type} {ON : Ord N}.
Variable logic : N -> BinNums.N.
Implicit Types g : coll (N * N).

Definition same_label (lab : N -> option N) (x y : N) : bool := match lab x, lab y with Some a, Some b => eqb a b | _, _ => false end.
(* the labels that trimming computes: of the nodes that edges lead to, the least from which a node is reached on the cycle *)
Definition reached_from g (targets : N -> Prop) (n l : N) : Prop := targets l /\ reaches g l n.
Definition target g (y : N) : Prop := exists x, member g (x, y).

Lemma trim_ok rounds cycle edges (es : list (N * N)) : nonneg cycle -> nonneg edges -> (forall e, member cycle e -> In e es) ->
  (forall l, target edges l -> pg_round logic l + length es <= rounds)%nat ->
  exists lab : N -> option N, (forall n l, lab n = Some l <-> least (reached_from cycle (target edges) n) l) /\
    (forall n l, reached_from cycle (target edges) n l -> exists a, lab n = Some a) /\
    forall x y, weight (trim_edges rounds cycle edges logic) (y, x) = if same_label lab x y then weight edges (x, y) else 0.
Proof.
  intros CN EN Hes HR. unfold trim_edges, propagate_at. set (nodes := consolidate _). set (labels := propagate_core _ _ _ _).
  assert (NW : forall n l, 0 <= weight nodes (n, l) /\ (member nodes (n, l) <-> n = l /\ target edges l)).
  { intros n l. unfold nodes, member. rewrite (consolidate_weight _ (n, l)). destruct (p_map (fun x : N * N => (snd x, snd x)) edges (n, l) EN) as [H1 H2]. split; [auto|]. rewrite H2. split.
    - intros ([x y] & H & E0). cbn [snd] in E0. injection E0 as <- <-. split; [auto|]. exists x. auto.
    - intros (-> & x & H). exists (x, l). auto. }
  assert (NN : nonneg nodes) by (intros [n l]; apply NW).
  assert (HL : holds_exactly labels (fun nl => least (reached_from cycle (target edges) (fst nl)) (snd nl))).
  { eapply holds_iff; [|apply (propagate_limit cycle nodes logic CN NN es rounds Hes)].
    - intros [n l]. cbn [fst snd]. apply least_iff. intros a. unfold reached_from. split.
      + intros (m & Hm & W). apply NW in Hm as [-> Hm]. auto.
      + intros (Hm & W). exists a. split; [apply NW; auto|auto].
    - intros m l H. apply NW in H as [_ H]. auto. }
  assert (HU : forall k v v', least (reached_from cycle (target edges) (fst (k, v))) (snd (k, v)) -> least (reached_from cycle (target edges) (fst (k, v'))) (snd (k, v')) -> v = v').
  { intros k v v' H1 H2. cbn [fst snd] in *. eapply least_unique; eauto. }
  destruct (value_of_ok labels _ HL HU) as [HV _]. exists (value_of labels). split; [intros n l; rewrite HV; reflexivity|]. split.
  { intros n l [H1 H2]. destruct (propagate_some cycle nodes logic CN NN es rounds n l l Hes) as (l' & H'); auto.
    - intros m0 l0 H0. apply NW in H0 as [_ H0]. auto.
    - apply NW. auto.
    - fold labels in H'. exists l'. apply HV. apply (holds_member _ _ _ HL) in H'. auto. }
  intros x y. set (lab := value_of labels).
  pose proof (join_functional (fun e1 e2 l1 => (e2, (e1, l1))) edges labels _ HL HU) as J1.
  pose proof (join_functional (fun e2 (e1l1 : N * N) l2 => ((fst e1l1, e2), (snd e1l1, l2))) (k_join_map (fun e1 e2 l1 => (e2, (e1, l1))) edges labels) labels _ HL HU) as J2.
  pose proof (same_weights_trans _ _ _ J2 (flat_map_same _ _ _ J1)) as J3. clear J1 J2.
  apply (filter_same_weights (fun z : N * N * (N * N) => let '(_, (l1, l2)) := z in eqb l1 l2)) in J3.
  apply (map_same_weights (fun z : N * N * (N * N) => let '((x1, x2), _) := z in (x2, x1))) in J3. specialize (J3 (y, x)).
  unfold k_map at 1, k_filter at 1. rewrite J3. fold lab. clear J3 HL HU HV NW NN. clearbody labels. clear nodes.
  clear - lab. unfold same_label. induction edges as [|[[a b] r] edges IH]; [destruct (lab x), (lab y); try destruct (eqb _ _); reflexivity|].
  unfold k_flat_map in *. cbn [flat_map fst snd]. rewrite flat_map_app, filter_app, map_app, weight_app, IH. clear IH. rewrite weight_cons'. cbn [fst snd].
  destruct (eqb_spec (a, b) (x, y)) as [Ee|Hne].
  - injection Ee as -> ->. destruct (lab x) as [l1|]; cbn [map flat_map fst snd app filter].
    + destruct (lab y) as [l2|]; cbn [map flat_map fst snd app filter]; [|reflexivity]. destruct (eqb l1 l2); cbn [map flat_map fst snd app filter]; [|reflexivity]. rewrite weight_one, eqb_refl. reflexivity.
    + reflexivity.
  - rewrite !dplus_0_l. 
    match goal with |- dplus (weight ?l _) _ = _ => assert (W0 : weight l (y, x) = 0) end.
    { destruct (lab a) as [l1|]; cbn [map flat_map fst snd app filter]; [|reflexivity]. destruct (lab b) as [l2|]; cbn [map flat_map fst snd app filter]; [|reflexivity].
      destruct (eqb l1 l2); cbn [map flat_map fst snd app filter]; [|reflexivity]. rewrite weight_one. destruct (eqb_spec (b, a) (y, x)); [congruence|reflexivity]. }
    rewrite W0. zd. destruct (lab x), (lab y); try destruct (eqb _ _); lia.
Qed.

Section Body.
Variables (g : coll (N * N)) (inner : nat).
Hypothesis GN : nonneg g.
Hypothesis HI : forall l, (inner >= pg_round logic l + length g)%nat.
Local Notation trans := (k_map (fun x : N * N => (snd x, fst x)) g).
Definition part (c : coll (N * N)) : Prop := forall e, weight c e = weight g e \/ weight c e = 0.
Definition source (x : N) : Prop := exists y, member g (x, y).

Lemma trans_w x y : weight trans (y, x) = weight g (x, y).
Proof. apply (w_map_inj (fun x : N * N => (snd x, fst x)) g (x, y)). intros [a b] H. cbn [fst snd] in H. injection H as -> ->. auto. Qed.
Lemma part_nonneg c : part c -> nonneg c.
Proof. intros H e. specialize (H e). specialize (GN e). lia. Qed.
Lemma part_member c e : part c -> member c e -> member g e.
Proof. intros H. unfold member. specialize (H e). specialize (GN e). lia. Qed.
Lemma same_label_iff lab x y : same_label lab x y = true <-> exists a : N, lab x = Some a /\ lab y = Some a.
Proof.
  unfold same_label. destruct (lab x) as [a|]; [destruct (lab y) as [b|]|].
  - split; [intros H; apply (proj1 (eqb_eq _ _)) in H; subst; eauto|intros (d & H1 & H2); injection H1 as ->; injection H2 as ->; apply eqb_refl].
  - split; [discriminate|intros (d & _ & H); discriminate].
  - split; [discriminate|intros (d & H & _); discriminate].
Qed.

(* what one round computes *)
Record round_of (c c' : coll (N * N)) (c1 : coll (N * N)) (lab1 lab2 : N -> option N) : Prop := {
  ro_lab1 : forall n l, lab1 n = Some l <-> least (reached_from c (target g) n) l;
  ro_some1 : forall n l, target g l -> reaches c l n -> exists a, lab1 n = Some a;
  ro_c1 : forall x y, member c1 (y, x) <-> member g (x, y) /\ exists a, lab1 x = Some a /\ lab1 y = Some a;
  ro_lab2 : forall n l, lab2 n = Some l <-> least (reached_from c1 source n) l;
  ro_some2 : forall n l, source l -> reaches c1 l n -> exists a, lab2 n = Some a;
  ro_c' : forall x y, member c' (x, y) <-> member g (x, y) /\ exists a, lab2 x = Some a /\ lab2 y = Some a }.
Lemma body_ok c : part c -> part (scc_body inner g trans logic c) /\ exists c1 lab1 lab2, round_of c (scc_body inner g trans logic c) c1 lab1 lab2.
Proof.
  intros HP. unfold scc_body. destruct (trim_ok inner c g (map fst g) (part_nonneg c HP) GN) as (lab1 & A1 & A2 & A3).
  { intros e He. apply member_in. eapply part_member; eauto. }
  { intros l _. rewrite map_length. apply HI. }
  set (c1 := trim_edges inner c g logic) in *.
  assert (C1N : nonneg c1). { intros [y x]. rewrite A3. specialize (GN (x, y)). destruct (same_label _ _ _); lia. }
  assert (C1M : forall x y, member c1 (y, x) <-> member g (x, y) /\ exists a, lab1 x = Some a /\ lab1 y = Some a).
  { intros x y. rewrite <- same_label_iff. unfold member. rewrite A3. destruct (same_label _ _ _); [intuition|]. split; [lia|intros [_ H]; discriminate]. }
  assert (TN : nonneg trans). { intros [y x]. rewrite trans_w. apply GN. }
  destruct (trim_ok inner c1 trans (map fst trans) C1N TN) as (lab2 & B1 & B2 & B3).
  { intros [y x] He. apply member_in. apply C1M in He as [He _]. unfold member. rewrite trans_w. auto. }
  { intros l _. unfold k_map. rewrite !map_length. apply HI. }
  assert (TS : forall n, target trans n <-> source n).
  { intros n. unfold target, source, member. split; intros (y & H); exists y; rewrite trans_w in *; auto. }
  assert (W : forall x y, weight (trim_edges inner c1 trans logic) (x, y) = if same_label lab2 y x then weight g (x, y) else 0).
  { intros x y. rewrite B3, trans_w. reflexivity. }
  split.
  - intros [x y]. rewrite W. destruct (same_label _ _ _); auto.
  - exists c1, lab1, lab2. split; auto.
    + intros n l H1 H2. apply (A2 n l). split; auto.
    + intros n l. rewrite B1. apply least_iff. intros a. unfold reached_from. rewrite TS. reflexivity.
    + intros n l H1 H2. apply (B2 n l). split; [apply TS|]; auto.
    + intros x y. unfold member. rewrite W. rewrite <- (and_comm (exists a, _)).
      destruct (same_label lab2 y x) eqn:E0.
      * apply same_label_iff in E0 as (a & H1 & H2). split; [intros H; split; [eauto|auto]|intros [_ H]; auto].
      * split; [lia|]. intros [(a & H1 & H2) _]. assert (same_label lab2 y x = true) by (apply same_label_iff; eauto). congruence.
Qed.

Section Round.
Variables (c c' c1 : coll (N * N)) (lab1 lab2 : N -> option N).
Hypothesis HP : part c.
Hypothesis HR : round_of c c' c1 lab1 lab2.

Lemma lab1_along b n : reaches c1 b n -> lab1 b = lab1 n.
Proof.
  apply (reaches_ind' c1 (fun n => lab1 b = lab1 n)); [auto|]. intros y z H He. apply (ro_c1 _ _ _ _ _ HR) in He as (_ & a & H1 & H2). congruence.
Qed.
Lemma lab2_along a n : reaches c' a n -> lab2 a = lab2 n.
Proof.
  apply (reaches_ind' c' (fun n => lab2 a = lab2 n)); [auto|]. intros y z H He. apply (ro_c' _ _ _ _ _ HR) in He as (_ & b & H1 & H2). congruence.
Qed.
Lemma kept_lab1 x y : member c' (x, y) -> exists a, lab1 x = Some a /\ lab1 y = Some a.
Proof.
  intros H. apply (ro_c' _ _ _ _ _ HR) in H as (Hg & b & H1 & H2). apply (ro_lab2 _ _ _ _ _ HR) in H1, H2. destruct H1 as [[_ H1] _], H2 as [[_ H2] _].
  apply lab1_along in H1, H2. destruct (ro_some1 _ _ _ _ _ HR y y) as (a & Ha); [exists x; auto|apply reaches_refl|]. exists a. split; congruence.
Qed.
(* the edges within components stay *)
Lemma within_reach (d : coll (N * N)) : (forall x y, member g (x, y) -> same_component g x y -> member d (x, y)) ->
  forall x y, same_component g x y -> reaches d x y.
Proof.
  intros H x y [H1 H2]. assert (G : forall z, reaches g x z -> reaches g z y -> reaches d x z).
  { intros z [k W]. revert z W. induction k as [|k IH]; intros z W Hz; inversion W as [|k' a w z' V He]; subst; [apply reaches_refl|].
    assert (reaches g w z) by (apply reaches_edge; auto).
    eapply reaches_trans; [apply (IH w V); eapply reaches_trans; eauto|]. apply reaches_edge, H; auto. split; [auto|].
    eapply reaches_trans; [exact Hz|]. eapply reaches_trans; [exact H2|]. exists k. auto. }
  apply G; [auto|apply reaches_refl].
Qed.
Lemma within_kept : (forall x y, member g (x, y) -> same_component g x y -> member c (x, y)) -> forall x y, member g (x, y) -> same_component g x y -> member c' (x, y).
Proof.
  intros Hc.
  assert (S1 : forall x y, member g (x, y) -> same_component g x y -> member c1 (y, x)).
  { intros x y He HS. apply (ro_c1 _ _ _ _ _ HR). split; [auto|]. destruct (ro_some1 _ _ _ _ _ HR y y) as (a & Ha); [exists x; auto|apply reaches_refl|]. exists a. split; [|auto].
    apply (ro_lab1 _ _ _ _ _ HR). apply (ro_lab1 _ _ _ _ _ HR) in Ha. eapply least_iff; [|exact Ha]. intros b. unfold reached_from.
    assert (reaches c x y) by (apply within_reach; auto). assert (reaches c y x) by (apply within_reach; [auto|split; apply HS]).
    split; intros [T1 T2]; (split; [auto|]); eapply reaches_trans; eauto. }
  assert (R1 : forall x y, same_component g x y -> reaches c1 y x).
  { intros x y [H1 H2]. assert (G : forall z, reaches g x z -> reaches g z y -> reaches c1 z x).
    { intros z [k W]. revert z W. induction k as [|k IH]; intros z W Hz; inversion W as [|k' a w z' V He]; subst; [apply reaches_refl|].
      assert (reaches g w z) by (apply reaches_edge; auto).
      eapply reaches_trans; [|apply (IH w V); eapply reaches_trans; eauto]. apply reaches_edge, S1; auto. split; [auto|].
      eapply reaches_trans; [exact Hz|]. eapply reaches_trans; [exact H2|]. exists k. auto. }
    apply G; [auto|apply reaches_refl]. }
  intros x y He HS. apply (ro_c' _ _ _ _ _ HR). split; [auto|]. destruct (ro_some2 _ _ _ _ _ HR x x) as (a & Ha); [exists y; auto|apply reaches_refl|]. exists a. split; [auto|].
  apply (ro_lab2 _ _ _ _ _ HR). apply (ro_lab2 _ _ _ _ _ HR) in Ha. eapply least_iff; [|exact Ha]. intros b. unfold reached_from.
  assert (reaches c1 y x) by (apply R1; auto). assert (reaches c1 x y) by (apply R1; split; apply HS).
  split; intros [T1 T2]; (split; [auto|]); eapply reaches_trans; eauto.
Qed.
(* when nothing changes, only they are left *)
Lemma settled : (forall e, member c e -> member c' e) -> forall x y, member c (x, y) -> same_component g x y.
Proof.
  intros Hfix x y Hc. assert (Hg : member g (x, y)) by (eapply part_member; eauto).
  pose proof (Hfix _ Hc) as Hc'. destruct (kept_lab1 x y Hc') as (a & A1 & A2). apply (ro_c' _ _ _ _ _ HR) in Hc' as (_ & b & B1 & B2).
  pose proof A1 as [[A3 A4] _]%(ro_lab1 _ _ _ _ _ HR). pose proof B2 as [[B3 B4] _]%(ro_lab2 _ _ _ _ _ HR).
  assert (La : lab2 a = Some b). { rewrite <- B1. apply lab2_along. eapply reaches_sub; [|exact A4]. auto. }
  assert (Lb : lab1 b = Some a). { rewrite <- A2. apply lab1_along. auto. }
  assert (Sa : source a). { destruct A4 as [[|k] W]; [inversion W; subst; exists y; auto|]. apply walk_first in W as (z & Hz & _). exists z. eapply part_member; eauto. }
  assert (Tb : target g b). { destruct B4 as [[|k] W]; [inversion W; subst; exists x; auto|]. apply walk_first in W as (z & Hz & _). exists z. apply (ro_c1 _ _ _ _ _ HR) in Hz as [Hz _]. auto. }
  apply (ro_lab2 _ _ _ _ _ HR) in La as [_ La]. apply (ro_lab1 _ _ _ _ _ HR) in Lb as [_ Lb].
  assert (a = b). { apply le_antisym; [apply Lb|apply La]; (split; [auto|apply reaches_refl]). } subst b.
  split; [apply reaches_edge; auto|]. eapply reaches_trans; [|eapply reaches_sub; [|exact A4]; intros e; apply part_member; auto].
  clear - B4 HR. apply (reaches_ind' c1 (fun n => reaches g n a) a); [apply reaches_refl| |auto]. intros z w H He. apply (ro_c1 _ _ _ _ _ HR) in He as [He _].
  eapply reaches_trans; [apply reaches_edge; exact He|auto].
Qed.
End Round.
(* what is out stays out *)
Lemma shrinks c0 c c1 lab1 lab2 c' d1 l1 l2 : round_of c0 c c1 lab1 lab2 -> round_of c c' d1 l1 l2 -> forall e, member c' e -> member c e.
Proof.
  intros R0 R [x y] H. destruct (kept_lab1 _ _ _ _ _ R x y H) as (a & A1 & A2). assert (Hg : member g (x, y)) by (apply (ro_c' _ _ _ _ _ R) in H as [H _]; auto).
  apply (ro_c' _ _ _ _ _ R0). split; [auto|].
  apply (ro_lab1 _ _ _ _ _ R) in A1 as [[_ A1] _], A2 as [[_ A2] _]. apply (lab2_along _ _ _ _ _ R0) in A1, A2.
  destruct (ro_some2 _ _ _ _ _ R0 x x) as (b & Hb); [exists y; auto|apply reaches_refl|]. exists b. split; congruence.
Qed.

Local Notation state r := (k_iterate r (scc_body inner g trans logic) g).
Lemma state_part r : part (state r).
Proof. induction r as [|r IH]; [intros e; auto|]. cbn [k_iterate]. apply body_ok. auto. Qed.
Lemma state_shrinks r : forall e, member (state (S r)) e -> member (state r) e.
Proof.
  destruct r as [|r]; intros e H.
  - eapply part_member; [apply state_part|]. exact H.
  - destruct (body_ok (state r) (state_part r)) as (_ & c1 & l1 & l2 & R). destruct (body_ok (state (S r)) (state_part (S r))) as (_ & d1 & m1 & m2 & R').
    eapply shrinks; [exact R|exact R'|exact H].
Qed.
Lemma state_le r r' : (r <= r')%nat -> forall e, member (state r') e -> member (state r) e.
Proof. intros H. induction H as [|r' H IH]; [auto|]. intros e He. apply IH. apply state_shrinks. auto. Qed.
Lemma state_within r x y : member g (x, y) -> same_component g x y -> member (state r) (x, y).
Proof.
  revert x y. induction r as [|r IH]; [auto|]. destruct (body_ok (state r) (state_part r)) as (_ & c1 & l1 & l2 & R). intros x y. apply (within_kept _ _ _ _ _ R). auto.
Qed.
Definition isin (c : coll (N * N)) (e : N * N) : bool := 0 <? weight c e.
Lemma isin_iff c e : isin c e = true <-> member c e. Proof. unfold isin, member. apply Z.ltb_lt. Qed.
Lemma filter_le {A} (p q : A -> bool) l : (forall a, q a = true -> p a = true) -> (length (filter q l) <= length (filter p l))%nat /\
  (length (filter q l) = length (filter p l) -> forall a, In a l -> p a = true -> q a = true).
Proof.
  intros H. induction l as [|x l [IH1 IH2]]; [split; [auto|intros _ a []]|]. cbn [filter]. destruct (q x) eqn:Eq, (p x) eqn:Ep; cbn [length].
  - split; [lia|]. intros Hl a [<-|Ha]; [auto|]. apply IH2; auto.
  - apply H in Eq. congruence.
  - split; [lia|]. intros Hl. lia.
  - split; [auto|]. intros Hl a [<-|Ha]; [congruence|]. apply IH2; auto.
Qed.
Lemma settles : exists r, (r <= length g)%nat /\ forall e, member (state r) e -> member (state (S r)) e.
Proof.
  set (size := fun r => length (filter (isin (state r)) (map fst g))).
  assert (G : forall k, (exists r, (r < k)%nat /\ forall e, member (state r) e -> member (state (S r)) e) \/ (size k + k <= length g)%nat).
  { induction k as [|k IH].
    - right. unfold size. rewrite Nat.add_0_r, <- (map_length fst g). 
      destruct (filter_le (fun _ => true) (isin (state 0)) (map fst g)) as [F1 _]; [auto|]. eapply Nat.le_trans; [exact F1|].
      clear. induction (map fst g) as [|x l IH]; [auto|]. cbn [filter length]. lia.
    - destruct IH as [(r & H1 & H2)|IH]; [left; exists r; split; [lia|auto]|].
      destruct (filter_le (isin (state k)) (isin (state (S k))) (map fst g)) as [F1 F2]; [intros e; rewrite !isin_iff; apply state_shrinks|].
      destruct (Nat.eq_dec (length (filter (isin (state (S k))) (map fst g))) (length (filter (isin (state k)) (map fst g)))) as [E0|Hne].
      + left. exists k. split; [lia|]. intros e He. apply isin_iff, F2; [auto| |apply isin_iff; auto]. apply member_in. eapply part_member; [apply state_part|eauto].
      + right. unfold size in *. lia. }
  destruct (G (S (length g))) as [(r & H1 & H2)|H]; [exists r; split; [lia|auto]|lia].
Qed.
Lemma scc_ok rounds : (length g <= rounds)%nat -> forall x y,
  (same_component g x y -> weight (state rounds) (x, y) = weight g (x, y)) /\ (~ same_component g x y -> weight (state rounds) (x, y) = 0).
Proof.
  intros HL x y. destruct settles as (r & Hr & Hfix).
  assert (S1 : member (state rounds) (x, y) -> same_component g x y).
  { intros H. apply (state_le r rounds) in H; [|lia]. destruct (body_ok (state r) (state_part r)) as (_ & c1 & l1 & l2 & R).
    eapply (settled _ _ _ _ _ (state_part r) R); eauto. }
  pose proof (state_within rounds x y) as S2. pose proof (state_part rounds (x, y)) as HW. pose proof (GN (x, y)) as H0. unfold member in *. split.
  - intros HS. destruct (Z.eq_dec (weight g (x, y)) 0) as [Z0|Z0]; [lia|]. assert (0 < weight (state rounds) (x, y)) by (apply S2; [lia|auto]). lia.
  - intros HS. assert (HN : ~ 0 < weight (state rounds) (x, y)) by auto. lia.
Qed.
End Body.
End Trim.
