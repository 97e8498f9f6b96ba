(** Operators on collections at one time, by the counts they give. *)
From Verif Require Import Base.Collections Spec.PrefixSumSpec Proofs.ConsolidationP.
Local Open Scope Z_scope.
Ltac zd := change (@dplus Z Diff_Z) with Z.add in *; change (@dzero Z Diff_Z) with 0%Z in *.

Lemma lsum_cons' {A R S} {DR : Diff R} {DS : Diff S} (f : A -> R -> S) x l : lsum f (x :: l) = dplus (f (fst x) (snd x)) (lsum f l).
Proof. reflexivity. Qed.

Section Ops.
Context {D E : Type} {OD : Ord D} {OE : Ord E}.
Implicit Types c : coll D.

Lemma w_concat c1 c2 d : weight (k_concat c1 c2) d = weight c1 d + weight c2 d.
Proof. unfold k_concat. rewrite weight_app. reflexivity. Qed.
Lemma w_negate c d : weight (k_negate c) d = - weight c d.
Proof. unfold k_negate. induction c as [|x c IH]; [reflexivity|]. cbn [map]. rewrite !weight_cons', IH. cbn [fst snd]. zd. destruct (eqb _ _); lia. Qed.
Lemma w_filter (p : D -> bool) c d : weight (k_filter p c) d = if p d then weight c d else 0.
Proof. unfold k_filter. rewrite (weight_filter p c d). reflexivity. Qed.
Lemma w_map_sum (f : D -> E) c e : weight (k_map f c) e = lsum (fun d w => if eqb (f d) e then w else 0) c.
Proof. unfold k_map. induction c as [|x c IH]; [reflexivity|]. cbn [map]. rewrite weight_cons', IH. reflexivity. Qed.
Lemma w_map_inj (f : D -> E) c d : (forall d', f d' = f d -> d' = d) -> weight (k_map f c) (f d) = weight c d.
Proof.
  intros Hf. unfold k_map. induction c as [|x c IH]; [reflexivity|]. cbn [map]. rewrite !weight_cons', IH. cbn [fst snd].
  destruct (eqb_spec (f (fst x)) (f d)) as [H|H], (eqb_spec (fst x) d) as [H'|H']; auto; [apply Hf in H; contradiction|congruence].
Qed.
Lemma w_map_out (f : D -> E) c e : (forall d, f d <> e) -> weight (k_map f c) e = 0.
Proof.
  intros Hf. unfold k_map. induction c as [|x c IH]; [reflexivity|]. cbn [map]. rewrite !weight_cons', IH. cbn [fst snd].
  destruct (eqb_spec (f (fst x)) e) as [H|H]; [exfalso; eapply Hf; eauto|reflexivity].
Qed.
Lemma w_distinct c d : weight (k_distinct c) d = if 0 <? weight c d then 1 else 0.
Proof.
  unfold k_distinct. rewrite <- (consolidate_weight c d). pose proof (consolidate_consolidated c) as H. revert H. generalize (consolidate c) as l. clear c.
  induction l as [|x l IH]; intros H; [reflexivity|]. apply consolidated_cons_inv in H as (H1 & H3 & H2). cbn [filter]. rewrite weight_cons'.
  destruct (eqb_spec (fst x) d) as [Ed|Hd].
  - rewrite (weight_lt_zero l d) by (rewrite <- Ed; exact H2). zd. rewrite Z.add_0_r. destruct (0 <? snd x) eqn:Eq0.
    + cbn [map]. rewrite weight_cons'. cbn [fst snd]. rewrite Ed, eqb_refl. rewrite IH by auto. rewrite (weight_lt_zero l d) by (rewrite <- Ed; exact H2). reflexivity.
    + rewrite IH by auto. rewrite (weight_lt_zero l d) by (rewrite <- Ed; exact H2). reflexivity.
  - zd. rewrite Z.add_0_l. destruct (0 <? snd x); [|auto]. cbn [map]. rewrite weight_cons'. cbn [fst snd]. destruct (eqb_spec (fst x) d); [contradiction|]. zd. rewrite IH; auto.
Qed.

(** Collections in which nothing counts less than zero. *)
Definition nonneg c : Prop := forall d, 0 <= weight c d.
Lemma nonneg_distinct c : nonneg (k_distinct c).
Proof. intros d. rewrite w_distinct. destruct (_ <? _); lia. Qed.
Lemma support c : nonneg c -> exists c', same_weights c c' /\ Forall (fun x => 0 < snd x) c' /\ forall d, 0 < weight c d <-> In d (map fst c').
Proof.
  intros H. exists (consolidate c). pose proof (consolidate_consolidated c) as HC. split; [apply same_weights_sym, consolidate_weight|].
  assert (HW := consolidate_weight c). split.
  - rewrite Forall_forall. intros x Hx. pose proof (consolidated_weight _ HC x Hx) as Eq1. rewrite HW in Eq1. specialize (H (fst x)).
    destruct HC as [_ HZ]. rewrite Forall_forall in HZ. specialize (HZ x Hx). rewrite <- Eq1 in *. apply is_zero_false in HZ. zd. lia.
  - intros d. rewrite (consolidated_in_weight _ d HC), HW. specialize (H d). zd. lia.
Qed.
Lemma sum_pos {A} (g : A -> Z) (l : list A) : (forall x, In x l -> 0 <= g x) -> 0 <= dsum (map g l) /\ (0 < dsum (map g l) <-> exists x, In x l /\ 0 < g x).
Proof.
  induction l as [|x l IH]; intros H.
  - cbn. split; [lia|]. split; [lia|intros (x & [] & _)].
  - cbn [map]. rewrite dsum_cons. zd. destruct IH as [I1 I2]; [intros; apply H; right; auto|]. specialize (H x (or_introl eq_refl)). split; [lia|]. split.
    + intros Hp. destruct (Z.ltb_spec 0 (g x)) as [Hx|Hx]; [exists x; split; [left; auto|auto]|]. destruct (proj1 I2) as (y & Hy & Hg); [lia|]. exists y. split; [right; auto|auto].
    + intros (y & [<-|Hy] & Hg); [lia|]. assert (0 < dsum (map g l)) by (apply I2; eauto). lia.
Qed.
Lemma w_flat_map_sum (f : D -> list E) c e : weight (k_flat_map f c) e = lsum (fun d w => dsum (map (fun x => if eqb x e then w else 0) (f d))) c.
Proof.
  unfold k_flat_map. induction c as [|x c IH]; [reflexivity|]. cbn [flat_map]. rewrite weight_app, IH. unfold lsum. cbn [map]. rewrite dsum_cons. f_equal.
  induction (f (fst x)) as [|y l IHl]; [reflexivity|]. cbn [map]. rewrite weight_cons', IHl, dsum_cons. reflexivity.
Qed.
Lemma p_flat_map (f : D -> list E) c e : nonneg c -> 0 <= weight (k_flat_map f c) e /\ (0 < weight (k_flat_map f c) e <-> exists d, 0 < weight c d /\ In e (f d)).
Proof.
  intros H. destruct (support c H) as (c' & HS & HP & HI). rewrite w_flat_map_sum.
  assert (EL : forall c2, same_weights c c2 -> lsum (fun d w => dsum (map (fun x => if eqb x e then w else 0) (f d))) c = lsum (fun d w => dsum (map (fun x => if eqb x e then w else 0) (f d))) c2).
  { intros c2 H2. apply lsum_same_weights; auto.
    - intros d. apply dsum_map_zero. intros x _. destruct (eqb _ _); auto.
    - intros d r1 r2. rewrite <- dsum_map_plus. apply dsum_map_ext. intros x _. destruct (eqb _ _); auto. }
  rewrite (EL c' HS). clear EL.
  unfold lsum. rewrite Forall_forall in HP.
  assert (HN : forall x, In x c' -> 0 <= dsum (map (fun y => if eqb y e then snd x else 0) (f (fst x)))).
  { intros x Hx. apply sum_pos. intros y _. specialize (HP x Hx). destruct (eqb _ _); lia. }
  destruct (sum_pos _ c' HN) as [S1 S2]. split; [exact S1|]. rewrite S2. split.
  - intros (x & Hx & Hp). exists (fst x). split; [apply HI, in_map; auto|]. apply sum_pos in Hp; [|intros y _; specialize (HP x Hx); destruct (eqb _ _); lia].
    destruct Hp as (y & Hy & Hp). destruct (eqb_spec y e) as [->|]; [auto|lia].
  - intros (d & Hd & He). apply HI, in_map_iff in Hd as (x & <- & Hx). exists x. split; [auto|]. apply sum_pos; [intros y _; specialize (HP x Hx); destruct (eqb _ _); lia|].
    exists e. rewrite eqb_refl. split; auto.
Qed.
Lemma p_map (f : D -> E) c e : nonneg c -> 0 <= weight (k_map f c) e /\ (0 < weight (k_map f c) e <-> exists d, 0 < weight c d /\ f d = e).
Proof.
  intros H. assert (Eq : k_map f c = k_flat_map (fun d => [f d]) c). { unfold k_map, k_flat_map. clear H. induction c as [|x c IH]; [auto|]. cbn. rewrite IH. auto. }
  rewrite Eq. destruct (p_flat_map (fun d => [f d]) c e H) as [P1 P2]. split; [auto|]. rewrite P2. split.
  - intros (d & Hd & [Hf|[]]). eauto.
  - intros (d & Hd & <-). exists d. split; [auto|left; auto].
Qed.
End Ops.

Section Join.
Context {K V1 V2 E : Type} {OK : Ord K} {O1 : Ord V1} {O2 : Ord V2} {OE : Ord E}.

Lemma w_join_sum (f : K -> V1 -> V2 -> E) (c1 : coll (K * V1)) (c2 : coll (K * V2)) e :
  weight (k_join_map f c1 c2) e =
  lsum (fun kv r1 => lsum (fun kv2 r2 => if eqb (fst kv2) (fst kv) && eqb (f (fst kv) (snd kv) (snd kv2)) e then r1 * r2 else 0) c2) c1.
Proof.
  unfold k_join_map. induction c1 as [|x c1 IH]; [reflexivity|]. cbn [flat_map]. rewrite weight_app, IH, lsum_cons'. f_equal.
  clear. induction c2 as [|y c2 IH]; [reflexivity|]. unfold lsum in *. cbn [map filter]. rewrite dsum_cons. rewrite <- IH.
  destruct (eqb (fst (fst y)) (fst (fst x))); cbn [andb map]; [|reflexivity]. rewrite weight_cons'. cbn [fst snd]. reflexivity.
Qed.
Lemma join_same (f : K -> V1 -> V2 -> E) (c1 c1' : coll (K * V1)) (c2 c2' : coll (K * V2)) e : same_weights c1 c1' -> same_weights c2 c2' ->
  weight (k_join_map f c1 c2) e = weight (k_join_map f c1' c2') e.
Proof.
  intros H1 H2. rewrite !w_join_sum. transitivity (lsum (fun kv r1 => lsum (fun kv2 r2 => if eqb (fst kv2) (fst kv) && eqb (f (fst kv) (snd kv) (snd kv2)) e then r1 * r2 else 0) c2) c1').
  - apply lsum_same_weights; auto.
    + intros a. unfold lsum. apply dsum_map_zero. intros x _. destruct (_ && _); auto.
    + intros a r1 r2. unfold lsum. rewrite <- dsum_map_plus. apply dsum_map_ext. intros x _. zd. destruct (_ && _); lia.
  - unfold lsum. apply dsum_map_ext. intros x _. apply (lsum_same_weights (fun kv2 r2 => if eqb (fst kv2) (fst (fst x)) && eqb (f (fst (fst x)) (snd (fst x)) (snd kv2)) e then snd x * r2 else 0)); auto.
    + intros a. destruct (_ && _); zd; lia.
    + intros a r1 r2. zd. destruct (_ && _); lia.
Qed.
Lemma p_join (f : K -> V1 -> V2 -> E) (c1 : coll (K * V1)) (c2 : coll (K * V2)) e : nonneg c1 -> nonneg c2 ->
  0 <= weight (k_join_map f c1 c2) e /\ (0 < weight (k_join_map f c1 c2) e <-> exists k v1 v2, 0 < weight c1 (k, v1) /\ 0 < weight c2 (k, v2) /\ f k v1 v2 = e).
Proof.
  intros N1 N2. destruct (support c1 N1) as (c1' & S1 & P1 & I1), (support c2 N2) as (c2' & S2 & P2 & I2).
  rewrite (join_same f _ _ _ _ e S1 S2), w_join_sum. unfold lsum. rewrite Forall_forall in P1, P2.
  assert (G : forall x y, In x c1' -> In y c2' -> 0 <= (if eqb (fst (fst y)) (fst (fst x)) && eqb (f (fst (fst x)) (snd (fst x)) (snd (fst y))) e then snd x * snd y else 0)).
  { intros x y Hx Hy. specialize (P1 x Hx). specialize (P2 y Hy). destruct (_ && _); [nia|lia]. }
  destruct (sum_pos _ c1' (fun x Hx => proj1 (sum_pos _ c2' (fun y Hy => G x y Hx Hy)))) as [T1 T2]. split; [exact T1|]. rewrite T2. split.
  - intros (x & Hx & Hp). apply sum_pos in Hp; [|intros; apply G; auto]. destruct Hp as (y & Hy & Hp).
    destruct (eqb_spec (fst (fst y)) (fst (fst x))) as [E1|]; [|cbn in Hp; lia]. destruct (eqb_spec (f (fst (fst x)) (snd (fst x)) (snd (fst y))) e) as [E2|]; [|cbn in Hp; lia].
    exists (fst (fst x)), (snd (fst x)), (snd (fst y)). split; [|split; [|exact E2]].
    + apply I1. rewrite <- surjective_pairing. apply in_map. auto.
    + apply I2. rewrite <- E1, <- surjective_pairing. apply in_map. auto.
  - intros (k & v1 & v2 & H1 & H2 & <-). apply I1, in_map_iff in H1 as (x & Ex & Hx). apply I2, in_map_iff in H2 as (y & Ey & Hy).
    exists x. split; [auto|]. apply sum_pos; [intros; apply G; auto|]. exists y. split; [auto|]. rewrite Ex, Ey. cbn [fst snd]. rewrite !eqb_refl. cbn [andb].
    specialize (P1 x Hx). specialize (P2 y Hy). nia.
Qed.
End Join.

Section Keys.
Context {K V : Type} {OK : Ord K} {OV : Ord V}.
Lemma w_semijoin (c : coll (K * V)) (keys : coll K) k v : weight (k_semijoin c keys) (k, v) = weight c (k, v) * weight keys k.
Proof.
  unfold k_semijoin. rewrite w_join_sum.
  assert (G : forall kv r1, lsum (fun (kv2 : K * unit) r2 => if eqb (fst kv2) (fst kv) && eqb (A:=K*V) (fst kv, snd kv) (k, v) then r1 * r2 else 0) (k_map (fun k => (k, tt)) keys)
    = if eqb kv (k, v) then r1 * weight keys k else 0).
  { intros [k' v'] r1. cbn [fst snd]. unfold k_map. induction keys as [|x keys IH]; unfold lsum in *; cbn [map].
    - rewrite weight_nil. zd. rewrite Z.mul_0_r. destruct (eqb (k', v') (k, v)); reflexivity.
    - rewrite dsum_cons, IH, weight_cons'. cbn [fst snd]. destruct (eqb_spec (k', v') (k, v)) as [Ee|Ne].
      + injection Ee as -> ->. rewrite andb_true_r. zd. destruct (eqb (fst x) k); lia.
      + rewrite andb_false_r. reflexivity. }
  unfold lsum at 1. transitivity (dsum (map (fun x : K * V * Z => if eqb (fst x) (k, v) then snd x * weight keys k else 0) c)).
  - apply dsum_map_ext. intros x _. apply G.
  - induction c as [|x c IH]; [rewrite weight_nil; reflexivity|]. cbn [map]. rewrite dsum_cons, IH, weight_cons'. zd. destruct (eqb _ _); lia.
Qed.
Lemma w_values (c : coll (K * V)) k v : weight (k_values c k) v = weight c (k, v).
Proof.
  unfold k_values. rewrite (consolidate_weight _ v). induction c as [|[[k' v'] r] c IH]; [reflexivity|]. cbn [filter fst]. rewrite weight_cons'. cbn [fst snd].
  destruct (eqb_spec k' k) as [->|Hk].
  - cbn [map fst snd]. rewrite weight_cons', IH. cbn [fst snd]. f_equal. destruct (eqb_spec v' v) as [Hv|Hv], (eqb_spec (k, v') (k, v)) as [Hp|Hp]; auto; congruence.
  - destruct (eqb_spec (k', v') (k, v)) as [Hp|Hp]; [congruence|]. rewrite dplus_0_l. auto.
Qed.
Lemma values_consolidated (c : coll (K * V)) k : consolidated (k_values c k).
Proof. apply consolidate_consolidated. Qed.
Lemma w_reduce {D} {OD : Ord D} (logic : K -> list (V * Z) -> list (D * Z)) (c : coll (K * V)) k o :
  weight (k_reduce logic c) (k, o) = match k_values c k with [] => 0 | input => weight (logic k input) o end.
Proof.
  unfold k_reduce. set (g := fun k => match k_values c k with [] => [] | input => map (fun o => ((k, fst o), snd o)) (logic k input) end).
  assert (G : forall k', weight (g k') (k, o) = if eqb k' k then match k_values c k with [] => 0 | input => weight (logic k input) o end else 0).
  { intros k'. unfold g. destruct (eqb_spec k' k) as [->|Hk].
    - destruct (k_values c k) as [|x l]; [reflexivity|]. generalize (logic k (x :: l)). intros q. induction q as [|y q IH]; [reflexivity|].
      cbn [map]. rewrite !weight_cons', IH. cbn [fst snd]. f_equal. destruct (eqb_spec (fst y) o) as [Hv|Hv], (eqb_spec (k, fst y) (k, o)) as [Hp|Hp]; auto; congruence.
    - destruct (k_values c k') as [|x l]; [reflexivity|]. generalize (logic k' (x :: l)). intros q. induction q as [|y q IH]; [reflexivity|].
      cbn [map]. rewrite weight_cons', IH. cbn [fst snd]. destruct (eqb_spec (k', fst y) (k, o)) as [Hp|Hp]; [congruence|reflexivity]. }
  set (ks := map fst _).
  assert (ND : NoDup ks). { apply strictly_sorted_nodup. apply (consolidate_consolidated (map (fun x : K * V * Z => (fst (fst x), 1)) c)). }
  assert (HK : k_values c k <> [] -> In k ks).
  { intros Hne. unfold ks. apply (consolidated_in_weight _ k (consolidate_consolidated _)). rewrite (consolidate_weight _ k).
    assert (HI : exists x, In x c /\ fst (fst x) = k).
    { destruct (k_values c k) as [|y l] eqn:Eq0; [contradiction|]. assert (Hy : In (fst y) (map fst (k_values c k))) by (rewrite Eq0; left; auto).
      apply consolidate_incl in Hy. apply in_map_iff in Hy as (z & _ & Hz). apply in_map_iff in Hz as (x & _ & Hx). apply filter_In in Hx as [Hx Ek].
      exists x. split; [auto|]. apply (proj1 (eqb_eq _ _)) in Ek. auto. }
    destruct HI as (x & Hx & Ek). intros H0.
    assert (P : 0 < weight (map (fun x : K * V * Z => (fst (fst x), 1)) c) k).
    { clear - Hx Ek. induction c as [|y c IH]; [destruct Hx|]. cbn [map]. rewrite weight_cons'. cbn [fst snd]. zd.
      assert (0 <= weight (map (fun x : K * V * Z => (fst (fst x), 1)) c) k).
      { clear. induction c as [|y c IH]; [cbn; lia|]. cbn [map]. rewrite weight_cons'. cbn [fst snd]. zd. destruct (eqb _ _); lia. }
      destruct Hx as [->|Hx]; [rewrite Ek, eqb_refl; lia|]. specialize (IH Hx). destruct (eqb _ _); lia. }
    zd. lia. }
  clearbody ks. clear - G ND HK. induction ks as [|k' ks IH].
  - cbn [flat_map]. rewrite weight_nil. destruct (k_values c k) eqn:Eq0; [reflexivity|]. exfalso. apply HK. discriminate.
  - cbn [flat_map]. rewrite weight_app, G. inversion ND as [|? ? Hn ND']; subst. zd. destruct (eqb_spec k' k) as [->|Hk].
    + assert (Z0 : weight (flat_map g ks) (k, o) = 0).
      { clear - G Hn. induction ks as [|k' ks IH]; [reflexivity|]. cbn [flat_map]. rewrite weight_app, G. cbn [In] in Hn. zd.
        destruct (eqb_spec k' k) as [->|]; [exfalso; apply Hn; auto|]. rewrite IH by tauto. auto. }
      rewrite Z0. lia.
    + rewrite IH; auto. intros H. destruct (HK H); [contradiction|auto].
Qed.
End Keys.
