(** Rounds of proposed identifiers. *)
From Verif Require Import Base.Collections Spec.GraphSpec Spec.PrefixSumSpec Model.IdentifiersM Proofs.ConsolidationP Proofs.OperatorsP.
Local Open Scope Z_scope.

Lemma lsum_single {A} {OA : Ord A} (f : A -> Z -> Z) (l : coll A) (a0 : A) :
  (forall a, f a 0 = 0) -> (forall a x y, f a (x + y) = f a x + f a y) -> (forall a w, In (a, w) l -> a <> a0 -> f a w = 0) -> lsum f l = f a0 (weight l a0).
Proof.
  intros F0 FP. induction l as [|[a w] l IH]; intros H; [cbn; zd; rewrite F0; auto|]. rewrite lsum_cons', weight_cons', IH. cbn [fst snd]. zd.
  - destruct (eqb_spec a a0) as [->|Ha]; [rewrite FP; auto|]. rewrite (H a w) by (auto; left; auto). rewrite Z.add_0_l. auto.
  - intros b v Hb. apply H. right. auto.
Qed.
Lemma map_only {A B} {OA : Ord A} {OB : Ord B} (r : coll (A * B)) a0 b : (forall a, a <> a0 -> weight r (a, b) = 0) -> weight (k_map snd r) b = weight r (a0, b).
Proof.
  intros H. rewrite w_map_sum.
  assert (S : same_weights (k_filter (fun x => eqb (snd x) b) r) [((a0, b), weight r (a0, b))]).
  { intros [a b']. rewrite w_filter, weight_one. cbn [snd]. destruct (eqb_spec b' b) as [->|Hb].
    - destruct (eqb_spec (a0, b) (a, b)) as [E0|Hn]; [injection E0 as <-; auto|]. apply H. congruence.
    - destruct (eqb_spec (a0, b) (a, b')); [congruence|auto]. }
  transitivity (lsum (fun d w => if eqb (snd d) b then w else 0) (k_filter (fun x => eqb (snd x) b) r)).
  - clear. unfold k_filter. induction r as [|x r IH]; [reflexivity|]. rewrite lsum_cons', IH. cbn [filter]. destruct (eqb (snd (fst x)) b) eqn:E0; [rewrite lsum_cons', E0; reflexivity|apply Z.add_0_l].
  - transitivity (lsum (fun (d : A * B) (w : Z) => if eqb (snd d) b then w else 0) [((a0, b), weight r (a0, b))]).
    + apply lsum_same_weights; [| |exact S]; intros d; intros; destruct (eqb (snd d) b); auto.
    + unfold lsum. cbn [map dsum fst snd]. rewrite eqb_refl. cbn. zd. lia.
Qed.

Section Identifiers.
Context {D H : Type} {OD : Ord D} {OH : Ord H}.
Variable hashed : nat * D -> H.
Variable c : coll D.
Local Notation init := (k_map (fun record : D => (0%nat, record)) c).
Local Notation body := (id_body hashed init).
Local Notation one := (fun b : bool => if b then 1 else 0).

(* the collection has each record once, with a round *)
Definition placed (rho : D -> nat) (x : coll (nat * D)) : Prop := forall q d, weight (k_concat init x) (q, d) = weight c d * one (Nat.eqb q (rho d)).
Lemma w_init q d : weight init (q, d) = weight c d * one (Nat.eqb q 0).
Proof.
  destruct (Nat.eqb_spec q 0) as [->|Hq].
  - rewrite (w_map_inj (fun record : D => (0%nat, record)) c d) by (intros d' E0; injection E0 as ->; auto). lia.
  - rewrite w_map_out by (intros d' E0; injection E0 as E1 _; congruence). lia.
Qed.
Lemma placed_start : placed (fun _ => 0%nat) [].
Proof. intros q d. rewrite w_concat, w_init, weight_nil. zd. lia. Qed.

Section Step.
Variables (rho : D -> nat) (x : coll (nat * D)).
Hypothesis HP : placed rho x.
Local Notation keyed := (k_map (fun pair : nat * D => (hashed pair, pair)) (k_concat init x)).
Definition loses (d : D) : bool := match k_values keyed (hashed (rho d, d)) with [] => false | _ :: losers => negb (weight losers (rho d, d) =? 0) end.
Definition next_round_of (d : D) : nat := if loses d then (rho d + 1)%nat else rho d.

Lemma w_keyed h q d : weight keyed (h, (q, d)) = if eqb (hashed (q, d)) h then weight c d * one (Nat.eqb q (rho d)) else 0.
Proof.
  destruct (eqb_spec (hashed (q, d)) h) as [<-|Hh].
  - rewrite (w_map_inj (fun pair : nat * D => (hashed pair, pair)) (k_concat init x) (q, d)) by (intros d' E0; injection E0 as _ ->; auto). apply HP.
  - apply w_map_out. intros [q' d'] E0. injection E0 as E1 -> ->. contradiction.
Qed.
Lemma logic_out h q d : h <> hashed (rho d, d) \/ weight c d = 0 -> match k_values keyed h with [] => 0 | input => weight (id_logic h input) (q, d) end = 0.
Proof.
  intros Hh. assert (HV : forall p w, In ((p, d), w) (k_values keyed h) -> False).
  { intros p w Hin. assert (weight keyed (h, (p, d)) <> 0).
    { rewrite <- (w_values keyed h (p, d)). apply (consolidated_in_weight _ _ (values_consolidated keyed h)). apply in_map_iff. exists ((p, d), w). auto. }
    rewrite w_keyed in H0. destruct (eqb_spec (hashed (p, d)) h) as [E0|]; [|lia]. destruct (Nat.eqb_spec p (rho d)) as [->|]; [|lia]. destruct Hh as [Hh|Hh]; [congruence|lia]. }
  destruct (k_values keyed h) as [|[[p d'] w] losers]; [auto|]. cbn [id_logic]. rewrite weight_app.
  assert (d' <> d) by (intros ->; eapply HV; left; eauto).
  assert (W1 : weight (if (0 <? p)%nat then [((0%nat, d'), - w); ((p, d'), w)] else []) (q, d) = 0).
  { destruct (0 <? p)%nat; [|reflexivity]. rewrite !weight_cons', weight_nil. cbn [fst snd]. destruct (eqb_spec (0%nat, d') (q, d)); [congruence|]. destruct (eqb_spec (p, d') (q, d)); [congruence|]. reflexivity. }
  rewrite W1. assert (HL : forall p0 w0, In ((p0, d), w0) losers -> False) by (intros p0 w0 H1; eapply HV; right; eauto). clear - HL. 
  assert (W2 : weight (flat_map (fun x0 : nat * D * Z => let '((round, record), count) := x0 in [((0%nat, record), - count); (((round + 1)%nat, record), count)]) losers) (q, d) = 0); [|rewrite W2; zd; lia].
  induction losers as [|[[p d'] w] losers IH]; [reflexivity|]. cbn [flat_map]. rewrite weight_app, IH by (intros p0 w0 H1; eapply HL; right; eauto).
  assert (d' <> d) by (intros ->; eapply HL; left; eauto). rewrite !weight_cons', weight_nil. cbn [fst snd]. destruct (eqb_spec (0%nat, d') (q, d)); [congruence|]. destruct (eqb_spec ((p + 1)%nat, d') (q, d)); [congruence|]. reflexivity.
Qed.
Lemma w_losers losers q d : (forall p w, In ((p, d), w) losers -> p = rho d) ->
  weight (flat_map (fun x0 : nat * D * Z => let '((round, record), count) := x0 in [((0%nat, record), - count); (((round + 1)%nat, record), count)]) losers) (q, d) =
  weight losers (rho d, d) * (one (Nat.eqb q (rho d + 1)) - one (Nat.eqb q 0)).
Proof.
  intros HL.
  transitivity (lsum (fun (pd : nat * D) w => (if eqb (snd pd) d then (one (Nat.eqb q (fst pd + 1)) - one (Nat.eqb q 0)) else 0) * w) losers).
  - clear HL. induction losers as [|[[p d'] w] losers IH]; [reflexivity|]. cbn [flat_map]. rewrite weight_app, lsum_cons', IH. cbn [fst snd]. f_equal.
    rewrite !weight_cons', weight_nil. cbn [fst snd]. zd. destruct (eqb_spec d' d) as [->|Hd].
    + assert (E1 : eqb (0%nat, d) (q, d) = Nat.eqb q 0). { destruct (eqb_spec (0%nat, d) (q, d)) as [E0|E0], (Nat.eqb_spec q 0); auto; congruence. }
      assert (E2 : eqb ((p + 1)%nat, d) (q, d) = Nat.eqb q (p + 1)). { destruct (eqb_spec ((p + 1)%nat, d) (q, d)) as [E0|E0], (Nat.eqb_spec q (p + 1)); auto; congruence. }
      rewrite E1, E2. destruct (Nat.eqb q 0), (Nat.eqb q (p + 1)); lia.
    + destruct (eqb_spec (0%nat, d') (q, d)); [congruence|]. destruct (eqb_spec ((p + 1)%nat, d') (q, d)); [congruence|]. lia.
  - rewrite (lsum_single _ losers (rho d, d)).
    + cbn [fst snd]. rewrite eqb_refl. lia.
    + intros a. lia.
    + intros a u v. lia.
    + intros [p d'] w Hin Hne. cbn [fst snd]. destruct (eqb_spec d' d) as [->|]; [|lia]. exfalso. apply Hne. f_equal. eapply HL; eauto.
Qed.
Lemma step_ok : placed next_round_of (body x).
Proof.
  intros q d. rewrite w_concat, w_init. unfold id_body. set (h := hashed (rho d, d)).
  rewrite (map_only _ h) by (intros h' Hh; rewrite w_reduce; apply logic_out; auto). rewrite w_reduce.
  destruct (Z.eq_dec (weight c d) 0) as [Z0|Z0]; [rewrite logic_out by auto; lia|].
  unfold next_round_of, loses. fold h. pose proof (values_consolidated keyed h) as HC. pose proof (w_values keyed h) as HW.
  assert (HU : forall p w, In ((p, d), w) (k_values keyed h) -> p = rho d).
  { intros p w Hin. assert (N0 : weight keyed (h, (p, d)) <> 0). { rewrite <- HW. apply (consolidated_in_weight _ _ HC). apply in_map_iff. exists ((p, d), w). auto. }
    rewrite w_keyed in N0. destruct (eqb_spec (hashed (p, d)) h) as [E0|]; [|lia]. destruct (Nat.eqb_spec p (rho d)) as [->|]; [auto|lia]. }
  assert (HD : weight (k_values keyed h) (rho d, d) = weight c d). { rewrite HW, w_keyed. unfold h. rewrite eqb_refl, Nat.eqb_refl. lia. }
  destruct (k_values keyed h) as [|[[p d'] w] losers]; [rewrite weight_nil in HD; zd; lia|]. cbn [id_logic]. rewrite weight_app, w_losers by (intros p0 w0 H1; eapply HU; right; eauto).
  rewrite weight_cons' in HD. cbn [fst snd] in HD. zd. destruct (eqb_spec (p, d') (rho d, d)) as [E0|Hne].
  - injection E0 as -> ->. apply consolidated_cons_inv in HC as (_ & _ & HF). cbn [fst] in HF. assert (L0 : weight losers (rho d, d) = 0) by exact (weight_lt_zero losers (rho d, d) HF).
    rewrite L0 in *. cbn [Z.eqb negb]. assert (Ew : w = weight c d) by lia. subst w.
    destruct (Nat.ltb_spec 0 (rho d)) as [Hr|Hr].
    + rewrite !weight_cons', weight_nil. cbn [fst snd]. zd.
      assert (E1 : eqb (0%nat, d) (q, d) = Nat.eqb q 0). { destruct (eqb_spec (0%nat, d) (q, d)) as [E0|E0], (Nat.eqb_spec q 0); auto; congruence. }
      assert (E2 : eqb (rho d, d) (q, d) = Nat.eqb q (rho d)). { destruct (eqb_spec (rho d, d) (q, d)) as [E0|E0], (Nat.eqb_spec q (rho d)); auto; congruence. }
      rewrite E1, E2. destruct (Nat.eqb q 0), (Nat.eqb q (rho d)); lia.
    + assert (E0 : rho d = 0%nat) by lia. rewrite E0, weight_nil. zd. lia.
  - assert (Ew : weight losers (rho d, d) = weight c d) by lia. rewrite Ew. destruct (Z.eqb_spec (weight c d) 0); [contradiction|]. cbn [negb].
    assert (W1 : weight (if (0 <? p)%nat then [((0%nat, d'), - w); ((p, d'), w)] else []) (q, d) = 0).
    { assert (d' <> d). { intros ->. apply Hne. f_equal. eapply HU. left. eauto. }
      destruct (0 <? p)%nat; [|reflexivity]. rewrite !weight_cons', weight_nil. cbn [fst snd]. destruct (eqb_spec (0%nat, d') (q, d)); [congruence|]. destruct (eqb_spec (p, d') (q, d)); [congruence|]. reflexivity. }
    rewrite W1. zd. destruct (Nat.eqb q 0), (Nat.eqb q (rho d + 1)); lia.
Qed.
(* of two that collide one loses *)
Lemma one_loses d d' : weight c d <> 0 -> weight c d' <> 0 -> d <> d' -> hashed (rho d, d) = hashed (rho d', d') -> loses d = true \/ loses d' = true.
Proof.
  intros W W' Hne Hh. unfold loses. rewrite <- Hh. set (h := hashed (rho d, d)) in *. pose proof (w_values keyed h) as HW.
  assert (V : weight (k_values keyed h) (rho d, d) = weight c d). { rewrite HW, w_keyed. unfold h. rewrite eqb_refl, Nat.eqb_refl. lia. }
  assert (V' : weight (k_values keyed h) (rho d', d') = weight c d'). { rewrite HW, w_keyed. rewrite Hh, eqb_refl, Nat.eqb_refl. lia. }
  destruct (k_values keyed h) as [|[[p e] w] losers]; [rewrite weight_nil in V; zd; lia|]. rewrite weight_cons' in V, V'. cbn [fst snd] in V, V'. zd.
  destruct (eqb_spec (p, e) (rho d, d)) as [E0|_].
  - right. destruct (eqb_spec (p, e) (rho d', d')) as [E1|_]; [congruence|]. apply negb_true_iff. apply Z.eqb_neq. lia.
  - left. apply negb_true_iff. apply Z.eqb_neq. lia.
Qed.
(* and a loser collides with another, in no later round *)
Lemma loses_to d : weight c d <> 0 -> loses d = true -> exists d', d' <> d /\ weight c d' <> 0 /\ hashed (rho d', d') = hashed (rho d, d).
Proof.
  intros W HL. unfold loses in HL. set (h := hashed (rho d, d)) in *. pose proof (values_consolidated keyed h) as HC. pose proof (w_values keyed h) as HW.
  destruct (k_values keyed h) as [|[[p e] w] losers]; [discriminate|]. apply negb_true_iff, Z.eqb_neq in HL.
  assert (N0 : weight keyed (h, (p, e)) <> 0). { rewrite <- HW. apply (consolidated_in_weight _ _ HC). left. auto. }
  rewrite w_keyed in N0. destruct (eqb_spec (hashed (p, e)) h) as [E0|]; [|lia]. destruct (Nat.eqb_spec p (rho e)) as [->|]; [|lia].
  exists e. split; [|split; [lia|auto]]. intros ->. apply consolidated_cons_inv in HC as (_ & _ & HF). apply HL. exact (weight_lt_zero losers (rho d, d) HF).
Qed.
End Step.

Fixpoint rounds_of (r : nat) : D -> nat := match r with 0%nat => fun _ => 0%nat | S r => next_round_of (rounds_of r) (id_diff hashed r c) end.
Lemma rounds_placed r : placed (rounds_of r) (id_diff hashed r c).
Proof. induction r as [|r IH]; [apply placed_start|]. cbn [rounds_of]. unfold id_diff. cbn [k_iterate]. apply step_ok. exact IH. Qed.
Lemma w_identifiers r d i : weight (identifiers hashed r c) (d, i) = if eqb (hashed (rounds_of r d, d)) i then weight c d else 0.
Proof.
  unfold identifiers. pose proof (rounds_placed r) as HP. set (s := k_concat (id_diff hashed r c) init).
  assert (HS : forall q d, weight s (q, d) = weight c d * one (Nat.eqb q (rounds_of r d))). { intros q e. rewrite <- HP. unfold s. rewrite !w_concat. lia. }
  rewrite w_map_sum. clearbody s.
  transitivity (lsum (fun (pd : nat * D) w => if eqb (snd pd) d && eqb (hashed pd) i then w else 0) (consolidate s)).
  - transitivity (lsum (fun (pd : nat * D) w => if eqb (snd pd) d && eqb (hashed pd) i then w else 0) s).
    + unfold lsum. f_equal. apply map_ext. intros [pd w]. cbn [fst snd]. destruct (eqb_spec (snd pd) d) as [E1|E1], (eqb_spec (hashed pd) i) as [E2|E2], (eqb_spec (snd pd, hashed pd) (d, i)); auto; congruence.
    + apply lsum_same_weights; [intros a; destruct (_ && _); auto|intros a u v; destruct (_ && _); auto|]. apply same_weights_sym. intros a. apply consolidate_weight.
  - rewrite (lsum_single _ (consolidate s) (rounds_of r d, d)).
    + cbn [snd]. rewrite eqb_refl. cbn [andb]. rewrite (consolidate_weight s (rounds_of r d, d)), HS, Nat.eqb_refl. destruct (eqb _ _); lia.
    + intros a. destruct (_ && _); auto.
    + intros a u v. destruct (_ && _); auto.
    + intros [p e] w Hin Hne. cbn [snd]. destruct (eqb_spec e d) as [->|]; [|auto]. exfalso.
      assert (N0 : weight s (p, d) <> 0). { rewrite <- (consolidate_weight s (p, d)). refine (proj1 (consolidated_in_weight (consolidate s) (p, d) (consolidate_consolidated s)) _). apply in_map_iff. exists ((p, d), w). auto. }
      rewrite HS in N0. destruct (Nat.eqb_spec p (rounds_of r d)) as [->|]; [auto|lia].
Qed.
Definition settled (r : nat) : Prop := same_weights (id_diff hashed (S r) c) (id_diff hashed r c).
Lemma settled_iff r : settled r <-> forall d, weight c d <> 0 -> rounds_of (S r) d = rounds_of r d.
Proof.
  pose proof (rounds_placed r) as P. pose proof (rounds_placed (S r)) as P'. split.
  - intros HS d W. specialize (P (rounds_of r d) d). specialize (P' (rounds_of r d) d). rewrite w_concat in P, P'. rewrite (HS (rounds_of r d, d)) in P'. rewrite Nat.eqb_refl in P.
    destruct (Nat.eqb_spec (rounds_of r d) (rounds_of (S r) d)); [auto|lia].
  - intros HS [q d]. specialize (P q d). specialize (P' q d). rewrite w_concat in P, P'. destruct (Z.eq_dec (weight c d) 0) as [Z0|Z0]; [rewrite Z0 in *; lia|]. rewrite (HS d Z0) in P'. lia.
Qed.
Lemma settled_unique r d d' : settled r -> weight c d <> 0 -> weight c d' <> 0 -> hashed (rounds_of r d, d) = hashed (rounds_of r d', d') -> d = d'.
Proof.
  intros HS W W' Hh. destruct (eqb_spec d d') as [|Hne]; [auto|]. exfalso. rewrite settled_iff in HS.
  destruct (one_loses (rounds_of r) (id_diff hashed r c) (rounds_placed r) d d' W W' Hne Hh) as [L|L]; [specialize (HS d W)|specialize (HS d' W')]; cbn [rounds_of] in HS; unfold next_round_of in HS; rewrite L in HS; lia.
Qed.
Lemma body_same x y : same_weights x y -> same_weights (body x) (body y).
Proof.
  intros HS. unfold id_body. apply (map_same_weights (fun p : H * (nat * D) => snd p)). intros [h p]. rewrite !w_reduce.
  assert (E0 : forall h, k_values (k_map (fun pair : nat * D => (hashed pair, pair)) (k_concat init x)) h = k_values (k_map (fun pair : nat * D => (hashed pair, pair)) (k_concat init y)) h).
  { intros h'. apply consolidated_unique; [apply values_consolidated|apply values_consolidated|]. intros v. rewrite !w_values.
    apply (map_same_weights (fun pair : nat * D => (hashed pair, pair))). intros q. rewrite !w_concat, (HS q). auto. }
  rewrite E0. auto.
Qed.
Lemma settled_stays r r' : settled r -> (r <= r')%nat -> same_weights (id_diff hashed r' c) (id_diff hashed r c).
Proof.
  intros HS Hr. induction Hr as [|r' Hr IH]; [intros a; auto|]. eapply same_weights_trans; [|exact HS]. unfold id_diff in *. cbn [k_iterate]. apply body_same. auto.
Qed.
(* the rounds only go up, and stop at a bound beyond which there are no collisions *)
Lemma settles (bound : nat) (records : list D) :
  (forall d, weight c d <> 0 -> In d records) ->
  (forall q d q' d', weight c d <> 0 -> weight c d' <> 0 -> d <> d' -> (bound <= q)%nat -> hashed (q, d) <> hashed (q', d')) ->
  exists r, (r <= length records * bound)%nat /\ settled r.
Proof.
  intros HR HB.
  assert (B : forall r d, weight c d <> 0 -> (rounds_of r d <= bound)%nat).
  { induction r as [|r IH]; intros d W; [cbn; lia|]. cbn [rounds_of]. unfold next_round_of. destruct (loses (rounds_of r) (id_diff hashed r c) d) eqn:L; [|auto].
    destruct (loses_to (rounds_of r) (id_diff hashed r c) (rounds_placed r) d W L) as (d' & Hne & W' & Hh).
    destruct (Nat.le_gt_cases bound (rounds_of r d)) as [Hl|Hl]; [|lia]. exfalso. eapply (HB (rounds_of r d) d (rounds_of r d') d'); auto. }
  set (live := filter (fun d => negb (weight c d =? 0)) records).
  assert (LV : forall d, In d live <-> weight c d <> 0 /\ In d records). { intros d. unfold live. rewrite filter_In, negb_true_iff, Z.eqb_neq. tauto. }
  set (total := fun r => list_sum (map (rounds_of r) live)).
  assert (ST : forall r, (forall l, (forall d, In d l -> weight c d <> 0) -> (list_sum (map (rounds_of r) l) <= list_sum (map (rounds_of (S r)) l))%nat /\
                           (list_sum (map (rounds_of r) l) = list_sum (map (rounds_of (S r)) l) -> forall d, In d l -> rounds_of (S r) d = rounds_of r d))).
  { intros r. induction l as [|d l IH]; intros HW; [split; [auto|intros _ d []]|]. destruct IH as [I1 I2]; [intros e He; apply HW; right; auto|]. 
    assert (H1 : (rounds_of r d <= rounds_of (S r) d)%nat) by (cbn [rounds_of]; unfold next_round_of; destruct (loses _ _ _); lia).
    change (list_sum (map (rounds_of r) (d :: l))) with (rounds_of r d + list_sum (map (rounds_of r) l))%nat. change (list_sum (map (rounds_of (S r)) (d :: l))) with (rounds_of (S r) d + list_sum (map (rounds_of (S r)) l))%nat.
    split; [lia|]. intros He e [<-|Hi]; [lia|]. apply I2; [lia|auto]. }
  assert (TB : forall r, (total r <= length records * bound)%nat).
  { intros r. unfold total. transitivity (length live * bound)%nat.
    - assert (HW : forall d, In d live -> weight c d <> 0) by (intros d Hd; apply LV; auto). clear - B HW. induction live as [|d l IH]; [auto|].
      change (list_sum (map (rounds_of r) (d :: l))) with (rounds_of r d + list_sum (map (rounds_of r) l))%nat. cbn [length]. specialize (IH (fun e He => HW e (or_intror He))). specialize (B r d (HW d (or_introl eq_refl))). lia.
    - apply Nat.mul_le_mono_r. unfold live. clear. induction records as [|d l IH]; [auto|]. cbn [filter length]. destruct (negb _); cbn [length]; lia. }
  assert (G : forall k, (exists r, (r < k)%nat /\ settled r) \/ (k <= total k)%nat).
  { induction k as [|k IH]; [right; lia|]. destruct IH as [(r & H1 & H2)|IH]; [left; exists r; split; [lia|auto]|].
    destruct (ST k live) as [S1 S2]; [intros d Hd; apply LV; auto|]. fold (total k) in S1, S2. fold (total (S k)) in S1, S2.
    destruct (Nat.eq_dec (total k) (total (S k))) as [E0|E0]; [|right; lia]. left. exists k. split; [lia|]. apply settled_iff. intros d W. apply S2; [auto|]. apply LV. auto. }
  destruct (G (S (length records * bound))) as [(r & H1 & H2)|H1]; [exists r; split; [lia|auto]|]. specialize (TB (S (length records * bound))). lia.
Qed.
End Identifiers.
