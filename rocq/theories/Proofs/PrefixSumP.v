(** Prefix sums. *)
From Verif Require Import Base.Collections Spec.PrefixSumSpec Proofs.ConsolidationP Proofs.OperatorsP.

Section PrefixSum.
Context {K D : Type} {OK : Ord K} {OD : Ord D}.
Variable bits rounds : nat.
Variable combine : K -> D -> D -> D.
Hypothesis Hassoc : associative combine.
Variable zero : D.
Hypothesis Hzero : forall k a, combine k a zero = a.
Variable value : nat -> K -> option D.
Local Notation range := (nat * nat * K)%type.

(** Each aligned interval: the combination of the values in it. *)
Definition both (k : K) (a b : option D) : option D :=
  match a, b with Some x, Some y => Some (combine k x y) | Some x, None => Some x | None, b => b end.
Fixpoint blk (log pos : nat) (k : K) : option D :=
  match log with 0 => value pos k | S log => both k (blk log (2 * pos) k) (blk log (2 * pos + 1) k) end.
Definition add (k : K) (sum : D) (o : option D) : D := match o with Some d => combine k sum d | None => sum end.
Definition folded (k : K) (sum : D) (l : list nat) : D := fold_left (fun sum i => add k sum (value i k)) l sum.

Lemma add_both k sum a b : add k sum (both k a b) = add k (add k sum a) b.
Proof. destruct a, b; cbn; auto. Qed.
Lemma blk_folded k log : forall pos sum, add k sum (blk log pos k) = folded k sum (seq (pos * 2 ^ log) (2 ^ log)).
Proof.
  induction log as [|log IH]; intros pos sum.
  - cbn [blk Nat.pow seq]. rewrite Nat.mul_1_r. reflexivity.
  - cbn [blk]. rewrite add_both, !IH. unfold folded. rewrite <- fold_left_app. f_equal.
    replace (2 ^ S log) with (2 ^ log + 2 ^ log) by (cbn; lia). rewrite seq_app. f_equal; f_equal; lia.
Qed.

(** ** Aggregation *)
Definition shows (o : option D) (d : D) : Z := match o with Some d' => if eqb d' d then 1%Z else 0%Z | None => 0%Z end.
Definition ranges_to (n : nat) (c : coll (range * D)) : Prop :=
  forall pos log k d, weight c (pos, log, k, d) = if (log <=? n) && (log <=? bits) then shows (blk log pos k) d else 0%Z.

Lemma unit_ok (c : coll (nat * K * D)) : presents_values c value ->
  forall pos log k d, weight (k_map (fun x : nat * K * D => let '(index, key, data) := x in ((index, 0, key), data)) c) (pos, log, k, d) = if log =? 0 then shows (value pos k) d else 0%Z.
Proof.
  intros H pos log k d. destruct (Nat.eqb_spec log 0) as [->|Hl].
  - change (pos, 0, k, d) with ((fun x : nat * K * D => let '(index, key, data) := x in ((index, 0, key), data)) (pos, k, d)).
    rewrite w_map_inj; [apply H|]. intros [[p' k'] d'] E. congruence.
  - apply w_map_out. intros [[p' k'] d'] E. congruence.
Qed.
Definition halves_of (p : nat) (k : K) (log : nat) : list (nat * D * Z) :=
  match blk log (2 * p) k with Some a => [((2 * p, a), 1%Z)] | None => [] end ++
  match blk log (2 * p + 1) k with Some a => [((2 * p + 1, a), 1%Z)] | None => [] end.
Lemma halves_consolidated p k log : consolidated (halves_of p k log).
Proof.
  unfold halves_of. destruct (blk log (2 * p) k) as [a|], (blk log (2 * p + 1) k) as [b|]; cbn [app]; split; cbn [map fst]; repeat constructor.
  apply lt_pair. left. unfold lt. cbn. apply Nat.compare_lt_iff. lia.
Qed.
Lemma halves_weight p k log q d : weight (halves_of p k log) (q, d) = if Nat.div2 q =? p then shows (blk log q k) d else 0%Z.
Proof.
  unfold halves_of. rewrite weight_app. zd.
  assert (One : forall x, weight match blk log x k with Some a => [((x, a), 1%Z)] | None => [] end (q, d) = if q =? x then shows (blk log x k) d else 0%Z).
  { intros x. destruct (blk log x k) as [a|]; cbn [shows]; [|rewrite weight_nil; destruct (q =? x); auto]. rewrite weight_one. destruct (Nat.eqb_spec q x) as [->|Hx].
    - destruct (eqb_spec (x, a) (x, d)), (eqb_spec a d); auto; congruence.
    - destruct (eqb_spec (x, a) (q, d)); [congruence|auto]. }
  rewrite !One. destruct (Nat.eqb_spec (Nat.div2 q) p) as [<-|Hp].
  - destruct (Nat.Even_or_Odd q) as [[x Hx]|[x Hx]]; subst q.
    + rewrite Nat.div2_double. rewrite Nat.eqb_refl. destruct (Nat.eqb_spec (2 * x) (2 * x + 1)); [lia|]. lia.
    + assert (Ed : Nat.div2 (2 * x + 1) = x) by (replace (2 * x + 1) with (S (2 * x)) by lia; apply Nat.div2_succ_double). rewrite Ed, Nat.eqb_refl.
      destruct (Nat.eqb_spec (2 * x + 1) (2 * x)); [lia|]. lia.
  - destruct (Nat.eqb_spec q (2 * p)) as [->|]; [rewrite Nat.div2_double in Hp; lia|].
    destruct (Nat.eqb_spec q (2 * p + 1)) as [->|]; [|auto]. replace (2 * p + 1) with (S (2 * p)) in Hp by lia. rewrite Nat.div2_succ_double in Hp. lia.
Qed.
Lemma double_ok n (units ranges : coll (range * D)) :
  (forall pos log k d, weight units (pos, log, k, d) = if log =? 0 then shows (value pos k) d else 0%Z) ->
  ranges_to n ranges -> ranges_to (S n) (ps_double bits combine units ranges).
Proof.
  intros HU HR pos log k d. unfold ps_double. rewrite w_concat, HU, w_reduce.
  set (M := k_map _ (k_filter _ ranges)).
  assert (HM : forall q v, weight M (pos, log, k, (q, v)) = match log with S l => if (Nat.div2 q =? pos) && ((l <? bits) && (l <=? n)) then shows (blk l q k) v else 0%Z | 0 => 0%Z end).
  { intros q v. unfold M. set (g := fun x : range * D => _). destruct log as [|l].
    - apply w_map_out. intros [[[p' l'] k'] d'] E. cbn in E. congruence.
    - destruct (Nat.eqb_spec (Nat.div2 q) pos) as [Hq|Hq]; cbn [andb].
      + change (pos, S l, k, (q, v)) with ((fun p => (p, S l, k, (q, v))) pos). cbn beta. rewrite <- Hq. change (Nat.div2 q, S l, k, (q, v)) with (g (q, l, k, v)).
        rewrite w_map_inj; [|intros [[[p' l'] k'] d'] E; cbn in E; congruence]. rewrite w_filter, HR. cbn [fst snd].
        destruct (Nat.ltb_spec l bits), (Nat.leb_spec l n), (Nat.leb_spec l bits); cbn [andb]; auto; lia.
      + apply w_map_out. intros [[[p' l'] k'] d'] E. cbn in E. congruence. }
  destruct log as [|l].
  - assert (E0 : k_values M (pos, 0, k) = []). { apply consolidated_unique; [apply values_consolidated|apply consolidated_nil|]. intros [q v]. rewrite w_values, HM. auto. }
    rewrite E0. cbn [Nat.eqb Nat.leb andb blk]. lia.
  - cbn [Nat.eqb]. destruct ((l <? bits) && (l <=? n)) eqn:Eb.
    + assert (E1 : k_values M (pos, S l, k) = halves_of pos k l).
      { apply consolidated_unique; [apply values_consolidated|apply halves_consolidated|]. intros [q v]. rewrite w_values, HM, halves_weight, andb_true_r. auto. }
      rewrite E1. apply andb_true_iff in Eb as [Eb1 Eb2]. apply Nat.ltb_lt in Eb1. apply Nat.leb_le in Eb2.
      rewrite (proj2 (Nat.leb_le (S l) (S n))), (proj2 (Nat.leb_le (S l) bits)) by lia. cbn [andb blk]. unfold halves_of.
      destruct (blk l (2 * pos) k) as [a|], (blk l (2 * pos + 1) k) as [b|]; cbn [app both shows fst snd]; rewrite ?weight_one; try reflexivity; match goal with |- context [eqb ?a ?b] => destruct (eqb a b) end; reflexivity.
    + assert (E0 : k_values M (pos, S l, k) = []).
      { apply consolidated_unique; [apply values_consolidated|apply consolidated_nil|]. intros [q v]. rewrite w_values, HM, andb_false_r. auto. }
      rewrite E0. destruct (Nat.ltb_spec l bits), (Nat.leb_spec l n); try discriminate;
        destruct (Nat.leb_spec (S l) (S n)), (Nat.leb_spec (S l) bits); try lia; reflexivity.
Qed.
Lemma aggregate_ok (c : coll (nat * K * D)) : presents_values c value -> ranges_to rounds (ps_aggregate bits rounds combine c).
Proof.
  intros H. unfold ps_aggregate. pose proof (unit_ok c H) as HU. set (units := k_map _ c) in *. clearbody units.
  induction rounds as [|n IH].
  - cbn [k_iterate]. intros pos log k d. rewrite HU. destruct log as [|l]; cbn; auto.
  - cbn [k_iterate]. apply double_ok; auto.
Qed.

(** ** The queries *)
Variable queries : coll (nat * K).
Hypothesis Hpos : nonneg queries.
Hypothesis Hfit : forall i k, (0 < weight queries (i, k))%Z -> i < 2 ^ bits.
Definition requested (pos log : nat) (k : K) : Prop :=
  exists idx, (0 < weight queries (idx, k))%Z /\ log < bits /\ Nat.testbit idx log = true /\ pos = Nat.shiftr idx log - 1.
Lemma requests_ok pos log k : weight (ps_requests bits queries) (pos, log, k) = 1%Z /\ requested pos log k \/
                              weight (ps_requests bits queries) (pos, log, k) = 0%Z /\ ~ requested pos log k.
Proof.
  unfold ps_requests. rewrite w_distinct. set (f := fun q : nat * K => _).
  destruct (p_flat_map f queries (pos, log, k) Hpos) as [_ P]. destruct (Z.ltb_spec 0 (weight (k_flat_map f queries) (pos, log, k))) as [H|H].
  - left. split; auto. apply P in H as ([idx k'] & Hw & Hi). unfold f in Hi. cbn [fst snd] in Hi. apply in_map_iff in Hi as (i & Ei & Hi). apply filter_In in Hi as [Hi Hb].
    apply in_seq in Hi. injection Ei as <- <- <-. exists idx. repeat split; auto. lia.
  - right. split; auto. intros (idx & Hw & Hl & Hb & ->). apply Z.le_ngt in H. apply H. apply P. exists (idx, k). split; [auto|]. unfold f. cbn [fst snd].
    apply in_map_iff. exists log. split; [auto|]. apply filter_In. split; [apply in_seq; lia|auto].
Qed.
Definition or_zero (o : option D) : D := match o with Some d => d | None => zero end.
Lemma used_ok ranges : ranges_to rounds ranges -> bits <= rounds -> forall pos log k d,
  weight (ps_used ranges (ps_requests bits queries) zero) (pos, log, k, d) =
    (weight (ps_requests bits queries) (pos, log, k) * (if eqb (or_zero (blk log pos k)) d then 1 else 0))%Z.
Proof.
  intros HR Hr pos log k d. unfold ps_used. rewrite !w_concat, w_negate.
  set (req := ps_requests bits queries). set (w := weight req (pos, log, k)).
  assert (HL : w = 0%Z \/ log < bits). { unfold w, req. destruct (requests_ok pos log k) as [[_ (i & _ & H & _)]|[H _]]; auto. }
  assert (EF : forall x, weight (k_semijoin ranges req) (pos, log, k, x) = (w * shows (blk log pos k) x)%Z).
  { intros x. rewrite w_semijoin. fold w. rewrite HR. destruct HL as [->|HL]; [lia|].
    rewrite (proj2 (Nat.leb_le log rounds)), (proj2 (Nat.leb_le log bits)) by lia. cbn [andb]. lia. }
  rewrite EF.
  assert (E1 : weight (k_map (fun r => (r, zero)) req) (pos, log, k, d) = if eqb zero d then w else 0%Z).
  { destruct (eqb_spec zero d) as [<-|Hd].
    - change (pos, log, k, zero) with ((fun r : range => (r, zero)) (pos, log, k)). rewrite w_map_inj; [auto|]. intros r E. congruence.
    - apply w_map_out. intros r E. congruence. }
  assert (E2 : weight (k_map (fun x : range * D => (fst x, zero)) (k_semijoin ranges req)) (pos, log, k, d) =
               if eqb zero d then match blk log pos k with Some _ => w | None => 0%Z end else 0%Z).
  { destruct (eqb_spec zero d) as [<-|Hd].
    - set (full := k_semijoin ranges req) in *.
      assert (ES : weight (k_map (fun x : range * D => (fst x, zero)) full) (pos, log, k, zero) =
        weight (k_map (fun x : range * D => (fst x, zero)) (k_filter (fun x => eqb (fst x) (pos, log, k)) full)) (pos, log, k, zero)).
      { clear. unfold k_map, k_filter. induction full as [|x full IH]; [reflexivity|]. cbn [map filter]. rewrite weight_cons', IH. cbn [fst snd].
        destruct (eqb_spec (fst (fst x)) (pos, log, k)) as [Ex|Ex].
        - cbn [map fst snd]. rewrite weight_cons'. cbn [fst snd]. auto.
        - destruct (eqb_spec (fst (fst x), zero) (pos, log, k, zero)); [congruence|]. zd. lia. }
      rewrite ES.
      assert (SW : same_weights (k_filter (fun x : range * D => eqb (fst x) (pos, log, k)) full) (match blk log pos k with Some x => [((pos, log, k, x), w)] | None => [] end)).
      { intros [r x]. rewrite w_filter. cbn [fst]. destruct (eqb_spec r (pos, log, k)) as [->|Hne].
        - rewrite EF. destruct (blk log pos k) as [y|]; cbn [shows]; [|rewrite weight_nil; zd; lia]. rewrite weight_one.
          destruct (eqb_spec y x), (eqb_spec (pos, log, k, y) (pos, log, k, x)); zd; try congruence; lia.
        - destruct (blk log pos k) as [y|]; [|reflexivity]. rewrite weight_one. destruct (eqb_spec (pos, log, k, y) (r, x)); [congruence|auto]. }
      apply (map_same_weights (fun x : range * D => (fst x, zero))) in SW. specialize (SW (pos, log, k, zero)). unfold k_map. rewrite SW.
      destruct (blk log pos k) as [y|]; [|reflexivity]. cbn [map fst snd]. rewrite weight_one, eqb_refl. auto.
    - apply w_map_out. intros r E. congruence. }
  rewrite E1, E2. destruct (blk log pos k) as [y|]; cbn [shows or_zero]; destruct (eqb zero d); try (destruct (eqb y d)); lia.
Qed.

(** ** Expansion *)
Definition pre (k : K) (n : nat) : D := folded k zero (seq 0 n).
Definition top (idx i : nat) : nat := Nat.shiftl (Nat.shiftr idx i) i.
Lemma top_le idx i : top idx i <= idx.
Proof.
  unfold top. rewrite Nat.shiftl_mul_pow2, Nat.shiftr_div_pow2. pose proof (Nat.mul_div_le idx (2 ^ i) (Nat.pow_nonzero 2 i ltac:(lia))). lia.
Qed.
Lemma top_step idx i : Nat.testbit idx i = true -> Nat.shiftl (Nat.shiftr idx i - 1) i = top idx (S i) /\ Nat.shiftl (Nat.shiftr idx i - 1) i + Nat.shiftl 1 i = top idx i.
Proof.
  intros H. rewrite Nat.testbit_odd in H. unfold top. rewrite !Nat.shiftl_mul_pow2. set (m := Nat.shiftr idx i) in *.
  assert (Em : Nat.shiftr idx (S i) = Nat.div2 m) by reflexivity.
  apply Nat.odd_spec in H as [x Hx]. rewrite Em, Hx. replace (2 * x + 1) with (S (2 * x)) by lia. rewrite Nat.div2_succ_double.
  split; cbn [Nat.pow]; rewrite ?Nat.sub_succ, ?Nat.sub_0_r; nia.
Qed.
Lemma top_same idx i : Nat.testbit idx i = false -> top idx i = top idx (S i).
Proof.
  intros H. rewrite Nat.testbit_odd in H. unfold top. rewrite !Nat.shiftl_mul_pow2. set (m := Nat.shiftr idx i) in *.
  assert (Em : Nat.shiftr idx (S i) = Nat.div2 m) by reflexivity.
  assert (He : Nat.even m = true) by (unfold Nat.odd in H; destruct (Nat.even m); auto; discriminate).
  apply Nat.even_spec in He as [x Hx]. rewrite Em, Hx, Nat.div2_double. cbn [Nat.pow]. nia.
Qed.
Lemma top_bits idx : idx < 2 ^ bits -> top idx bits = 0.
Proof. intros H. unfold top. rewrite Nat.shiftr_div_pow2, Nat.div_small by auto. apply Nat.shiftl_0_l. Qed.
Lemma top_0 idx : top idx 0 = idx.
Proof. reflexivity. Qed.
Lemma pre_step k idx i : Nat.testbit idx i = true -> combine k (pre k (top idx (S i))) (or_zero (blk i (Nat.shiftr idx i - 1) k)) = pre k (top idx i).
Proof.
  intros H. destruct (top_step idx i H) as [E1 E2].
  transitivity (add k (pre k (top idx (S i))) (blk i (Nat.shiftr idx i - 1) k)).
  { destruct (blk i _ k); cbn; auto. }
  rewrite blk_folded. unfold pre, folded. rewrite <- fold_left_app. f_equal.
  rewrite <- E2, <- E1. rewrite !Nat.shiftl_mul_pow2, Nat.mul_1_l, seq_app. auto.
Qed.

Variable ranges : coll (range * D).
Hypothesis HR : ranges_to rounds ranges.
Hypothesis Hrounds : bits <= rounds.
Definition used := ps_used ranges (ps_requests bits queries) zero.
Definition init := ps_init queries zero.
Definition moved : coll (nat * K * (nat * D)) := k_map (fun x : range * D => let '(pos, log, key, data) := x in ((Nat.shiftl pos log, key), (log, data))) used.
Lemma used_pos pos log k d : (0 < weight used (pos, log, k, d))%Z <-> requested pos log k /\ d = or_zero (blk log pos k).
Proof.
  unfold used. rewrite used_ok by auto. destruct (requests_ok pos log k) as [[-> H]|[-> H]].
  - destruct (eqb_spec (or_zero (blk log pos k)) d); [|split; [lia|intros [_ ?]; congruence]]. split; [auto|lia].
  - split; [lia|tauto].
Qed.
Lemma used_nonneg : nonneg used.
Proof.
  intros [[[pos log] k] d]. unfold used. rewrite used_ok by auto. destruct (requests_ok pos log k) as [[-> H]|[-> H]]; destruct (eqb _ _); lia.
Qed.
Lemma init_ok e k d : weight init (e, k, d) = 1%Z /\ (e = 0 /\ d = zero /\ exists idx, (0 < weight queries (idx, k))%Z) \/
                      weight init (e, k, d) = 0%Z /\ ~ (e = 0 /\ d = zero /\ exists idx, (0 < weight queries (idx, k))%Z).
Proof.
  unfold init, ps_init. rewrite w_distinct. set (f := fun q : nat * K => (0, snd q, zero)).
  destruct (p_map f queries (e, k, d) Hpos) as [_ P]. destruct (Z.ltb_spec 0 (weight (k_map f queries) (e, k, d))) as [H|H].
  - left. split; auto. apply P in H as ([idx k'] & Hw & Hi). unfold f in Hi. cbn [snd] in Hi. injection Hi as <- -> <-. eauto.
  - right. split; auto. intros (-> & -> & idx & Hw). apply Z.le_ngt in H. apply H. apply P. exists (idx, k). auto.
Qed.
Lemma init_nonneg : nonneg init.
Proof. apply nonneg_distinct. Qed.
Lemma moved_ok : nonneg moved /\ forall e k log d, (0 < weight moved (e, k, (log, d)))%Z <-> exists pos, e = Nat.shiftl pos log /\ requested pos log k /\ d = or_zero (blk log pos k).
Proof.
  split.
  - intros x. apply (p_map _ used x used_nonneg).
  - intros e k log d. unfold moved. set (f := fun x : range * D => _). destruct (p_map f used (e, k, (log, d)) used_nonneg) as [_ P]. rewrite P. split.
    + intros ([[[pos log'] k'] d'] & Hw & Hf). unfold f in Hf. injection Hf as <- <- <- <-. apply used_pos in Hw. eauto.
    + intros (pos & -> & Hq & Hd). exists (pos, log, k, d). split; [apply used_pos; auto|reflexivity].
Qed.

Definition states (n : nat) := k_iterate n (ps_expand combine used init) init.
Lemma states_nonneg n : nonneg (states n).
Proof. destruct n; apply nonneg_distinct. Qed.
Lemma expand_pos s e k d : nonneg s -> (0 < weight (ps_expand combine used init s) (e, k, d))%Z <->
  (exists idx i d', (0 < weight queries (idx, k))%Z /\ i < bits /\ Nat.testbit idx i = true /\ (0 < weight s (top idx (S i), k, d'))%Z /\
     e = top idx i /\ d = combine k d' (or_zero (blk i (Nat.shiftr idx i - 1) k))) \/
  (e = 0 /\ d = zero /\ exists idx, (0 < weight queries (idx, k))%Z).
Proof.
  intros Hs. unfold ps_expand. rewrite w_distinct, w_concat. fold moved. set (f := fun (pk : nat * K) (ld : nat * D) (state : D) => _). destruct moved_ok as [M1 M2].
  destruct (p_join f moved s (e, k, d) M1 Hs) as [P1 P2]. pose proof (init_ok e k d) as HI.
  transitivity ((0 < weight (k_join_map f moved s) (e, k, d))%Z \/ (0 < weight init (e, k, d))%Z).
  { destruct HI as [[-> _]|[-> _]]; destruct (Z.ltb_spec 0 (weight (k_join_map f moved s) (e, k, d) + 1));
      destruct (Z.ltb_spec 0 (weight (k_join_map f moved s) (e, k, d) + 0)); lia. }
  rewrite P2. assert (E2 : (0 < weight init (e, k, d))%Z <-> e = 0 /\ d = zero /\ exists idx, (0 < weight queries (idx, k))%Z).
  { destruct HI as [[-> H]|[-> H]]; [split; [auto|lia]|split; [lia|tauto]]. }
  rewrite E2. apply or_iff_compat_r. split.
  - intros ([e' k'] & [log x] & st & Hm & Hw & Hf). unfold f in Hf. cbn [fst snd] in Hf. injection Hf as <- -> <-.
    apply M2 in Hm as (pos & -> & (idx & Hq & Hl & Hb & ->) & ->). destruct (top_step idx log Hb) as [E1 E3]. exists idx, log, st.
    rewrite E3. rewrite E1 in Hw. repeat split; auto.
  - intros (idx & i & d' & Hq & Hi & Hb & Hw & -> & ->). destruct (top_step idx i Hb) as [E1 E3].
    exists (Nat.shiftl (Nat.shiftr idx i - 1) i, k), (i, or_zero (blk i (Nat.shiftr idx i - 1) k)), d'. split; [|split].
    + apply M2. exists (Nat.shiftr idx i - 1). repeat split; auto. exists idx. auto.
    + rewrite E1. auto.
    + unfold f. cbn [fst snd]. rewrite E3. auto.
Qed.
Lemma states_sound n : forall e k d, (0 < weight (states n) (e, k, d))%Z -> d = pre k e.
Proof.
  induction n as [|n IH]; intros e k d H.
  - unfold states in H. cbn [k_iterate] in H. destruct (init_ok e k d) as [[_ (-> & -> & _)]|[E _]]; [reflexivity|lia].
  - unfold states in H. cbn [k_iterate] in H. apply expand_pos in H; [|apply states_nonneg]. destruct H as [(idx & i & d' & _ & _ & Hb & Hw & -> & ->)|(-> & -> & _)]; [|reflexivity].
    apply IH in Hw. rewrite Hw. apply pre_step. auto.
Qed.
Lemma states_complete k idx : (0 < weight queries (idx, k))%Z -> forall j, j <= bits -> forall n, bits - j <= n -> j <= bits ->
  (0 < weight (states n) (top idx j, k, pre k (top idx j)))%Z.
Proof.
  intros Hq. assert (G : forall m j, j + m = bits -> forall n, m <= n -> (0 < weight (states n) (top idx j, k, pre k (top idx j)))%Z).
  { induction m as [|m IH]; intros j Hj n Hn.
    - replace j with bits by lia. rewrite top_bits by eauto. 
      assert (H0 : weight init (0, k, pre k 0) = 1%Z). { destruct (init_ok 0 k (pre k 0)) as [[H _]|[_ H]]; [auto|]. exfalso. apply H. eauto. }
      destruct n as [|n]; [unfold states; cbn [k_iterate]; lia|]. unfold states. cbn [k_iterate]. apply expand_pos; [apply states_nonneg|]. right. eauto.
    - destruct n as [|n]; [lia|]. destruct (Nat.testbit idx j) eqn:Eb.
      + unfold states. cbn [k_iterate]. apply expand_pos; [apply states_nonneg|]. left. exists idx, j, (pre k (top idx (S j))).
        repeat split; auto; [lia|apply IH; lia|]. symmetry. apply pre_step. auto.
      + rewrite (top_same idx j Eb). apply IH; lia. }
  intros j H1 n Hn _. apply (G (bits - j) j); lia.
Qed.
Lemma broadcast_ok i k d : weight (ps_broadcast bits rounds combine ranges queries zero) (i, k, d) = if eqb d (pre k i) then weight queries (i, k) else 0%Z.
Proof.
  unfold ps_broadcast. rewrite w_semijoin. fold used init. fold (states rounds).
  assert (H1 : weight (states rounds) (i, k, d) = 0%Z \/ weight (states rounds) (i, k, d) = 1%Z).
  { destruct rounds as [|n]; unfold states; cbn [k_iterate]; [unfold init, ps_init|unfold ps_expand]; rewrite w_distinct; destruct (_ <? _)%Z; auto. }
  destruct (Z.eq_dec (weight queries (i, k)) 0) as [E|E]; [rewrite E; destruct (eqb _ _); lia|].
  assert (Hq : (0 < weight queries (i, k))%Z) by (specialize (Hpos (i, k)); lia).
  destruct (eqb_spec d (pre k i)) as [->|Hd].
  - pose proof (states_complete k i Hq 0 ltac:(lia) rounds ltac:(lia) ltac:(lia)) as HC. rewrite top_0 in HC. destruct H1; lia.
  - destruct H1 as [->|H1]; [lia|]. exfalso. apply Hd, (states_sound rounds). lia.
Qed.
End PrefixSum.
