(** The half join: at all times what it has sent, with the answers to the proposals it has stashed, are the answers to
    all proposals. *)
From Verif Require Export Spec.HalfJoinSpec Proofs.StreamP Proofs.BilinearP Proofs.ReadableP Proofs.ConsolidationP.

(** ** Looking up a key *)
Section LookUp.
Context {B M C K V T R X : Type} {OK : Ord K} {OV : Ord V} {TT : Time T} {DR : Diff R}.
Variable ops : BatchOps B M T. Variable contents : B -> list (K * V * T * R). Variable laws : BatchLaws (D:=K*V) ops contents.
Variable cops : CursorOps B C K V T R. Variable new : C.
Hypothesis HR : readable ops contents laws cops new.
Variable emit : V -> list (T * R) -> list X.

Lemma nth_skipn {A} : forall n i (l : list A), nth_error (skipn n l) i = nth_error l (n + i).
Proof. induction n; intros i [|x l]; simpl; auto. destruct i; auto. Qed.
Lemma skipn_nth {A} : forall n (l : list A) x, nth_error l n = Some x -> skipn n l = x :: skipn (S n) l.
Proof. induction n; intros [|y l] x H; try discriminate; [inversion H; auto|]. simpl in *. apply IHn; auto. Qed.
Lemma sorted_nth_lt : forall (l : list K) i j a b, strictly_sorted l -> i < j -> nth_error l i = Some a -> nth_error l j = Some b -> lt a b.
Proof.
  induction l as [|x l IH]; intros i j a b HS Hij Ha Hb; [destruct i; discriminate|]. apply strictly_sorted_cons_inv in HS as [HS HF].
  destruct j; [lia|]. simpl in Hb. destruct i; simpl in Ha.
  - inversion Ha; subst. rewrite Forall_forall in HF. apply HF. eapply nth_error_In; eauto.
  - apply (IH i j a b); auto. lia.
Qed.

Lemma each_val_ok tbs tr k vs i : nth_error tr i = Some (k, vs) -> forall fuel j tc, shows (cl_ops cops) tbs tr tc {| kp := i; vp := j |} -> j <= length vs -> length vs - j <= fuel ->
  exists tc', each_val cops emit fuel tbs tc = Some (tc', flat_map (fun e => emit (fst e) (snd e)) (skipn j vs)) /\ shows (cl_ops cops) tbs tr tc' {| kp := i; vp := length vs |}.
Proof.
  intros Hi. induction fuel as [|fuel IH]; intros j tc HS Hj Hf.
  - assert (j = length vs) by lia. subst j. assert (Hk : at_key tr {| kp := i; vp := length vs |} = Some k) by (unfold at_key; simpl; rewrite Hi; auto).
    destruct (shows_get_val _ _ _ _ _ _ HS Hk) as [Ev _]. simpl c_get_val in Ev. cbn [each_val]. simpl c_get_val. rewrite Ev.
    assert (Hn : at_val tr {| kp := i; vp := length vs |} = None).
    { unfold at_val, cur_vals. simpl. rewrite Hi. rewrite (proj2 (nth_error_None vs (length vs))); auto. }
    rewrite Hn. exists tc. rewrite skipn_all. auto.
  - assert (Hk : at_key tr {| kp := i; vp := j |} = Some k) by (unfold at_key; simpl; rewrite Hi; auto).
    destruct (shows_get_val _ _ _ _ _ _ HS Hk) as [Ev Et].
    assert (Hcv : cur_vals tr {| kp := i; vp := j |} = vs) by (unfold cur_vals; simpl; rewrite Hi; auto).
    cbn [each_val]. rewrite Ev. destruct (nth_error vs j) as [[v ts]|] eqn:En.
    + assert (Hv : at_val tr {| kp := i; vp := j |} = Some v) by (unfold at_val; rewrite Hcv; simpl; rewrite En; auto).
      assert (Hts : at_times tr {| kp := i; vp := j |} = ts) by (unfold at_times; rewrite Hcv; simpl; rewrite En; auto).
      rewrite Hv in *. rewrite Et, Hts by discriminate.
      destruct (shows_nav _ _ _ _ _ StepVal HS) as (c1 & Ec & S1); [simpl; congruence|exact I|]. cbn [c_nav] in Ec. rewrite Ec.
      assert (Hlt : j < length vs) by (apply nth_error_Some; congruence).
      cbn [move kp vp] in S1. rewrite Hcv, Nat.min_l in S1 by lia.
      destruct (IH (S j) c1 S1 ltac:(lia) ltac:(lia)) as (c' & E & S'). rewrite E. exists c'. rewrite (skipn_nth j vs (v, ts)) by auto. simpl. auto.
    + assert (j = length vs) by (apply nth_error_None in En; lia). subst j.
      assert (Hn : at_val tr {| kp := i; vp := length vs |} = None) by (unfold at_val; rewrite Hcv; simpl; rewrite En; auto).
      rewrite Hn. exists tc. rewrite skipn_all. auto.
Qed.

Definition before (V0 : trie K V T R) (j : nat) (k : K) : Prop := forall n k0, n < j -> nth_error (map fst V0) n = Some k0 -> lt k0 k.

Lemma look_up_ok tbs (U : trie K V T R) fuel j jv tc key : strictly_sorted (map fst U) -> Forall (fun e => length (snd e) <= fuel) U ->
  shows (cl_ops cops) tbs U tc {| kp := j; vp := jv |} -> before U j key ->
  exists tc' j' jv', look_up cops emit fuel tbs tc key = Some (tc', flat_map (fun e => emit (fst e) (snd e)) (vals_under U key)) /\
    shows (cl_ops cops) tbs U tc' {| kp := j'; vp := jv' |} /\ before U j' key.
Proof.
  intros VS HF ST HJ. unfold look_up.
  destruct (shows_nav _ _ _ _ _ (SeekKey key) ST) as (tc1 & Et & ST1); [exact I|exact I|]. cbn [c_nav] in Et. rewrite Et.
  cbn [move kp] in ST1. set (j1 := j + prefix_len (fun e => ltb (fst e) key) (skipn j U)) in *.
  rewrite (shows_get_key _ _ _ _ _ ST1). unfold at_key. cbn [kp].
  assert (Before : before U j1 key).
  { intros n k0 Hn E0. destruct (Nat.lt_ge_cases n j) as [Hl|Hl]; [eapply HJ; eauto|].
    rewrite nth_error_map in E0. destruct (nth_error U n) as [e|] eqn:E1; [|discriminate]. inversion E0; subst k0.
    assert (E2 : nth_error (skipn j U) (n - j) = Some e) by (rewrite nth_skipn; replace (j + (n - j)) with n by lia; auto).
    assert (Hl2 : n - j < prefix_len (fun e => ltb (fst e) key) (skipn j U)) by (unfold j1 in Hn; lia).
    apply ltb_lt. clear - E2 Hl2. revert E2 Hl2. generalize (n - j) as m. generalize (skipn j U) as l. induction l as [|x l IH]; intros m E2 Hl2; [destruct m; discriminate|].
    simpl in Hl2. destruct (ltb (fst x) key) eqn:E; [|lia]. destruct m; simpl in E2; [inversion E2; subst; auto|]. eapply IH; eauto. lia. }
  assert (At : forall e, nth_error U j1 = Some e -> le key (fst e)).
  { intros e E1. apply ltb_ge. assert (E2 : nth_error (skipn j U) (prefix_len (fun e => ltb (fst e) key) (skipn j U)) = Some e) by (rewrite nth_skipn; exact E1).
    clear - E2. revert E2. generalize (skipn j U) as l. induction l as [|x l IH]; simpl; [discriminate|]. destruct (ltb (fst x) key) eqn:E; simpl; auto. intros E2. inversion E2; subst; auto. }
  assert (Split : forall e, nth_error U j1 = Some e -> vals_under U key = if eqb (fst e) key then snd e else []).
  { intros e E1. destruct (nth_error_split _ _ E1) as (l1 & l2 & EU & El). unfold vals_under. rewrite EU, flat_map_app. cbn [flat_map].
    assert (N1 : flat_map (fun e => if eqb (fst e) key then snd e else []) l1 = []).
    { assert (Hb : forall x, In x l1 -> fst x <> key).
      { intros x Hx Ek. apply In_nth_error in Hx as (n & En). assert (Hn : n < length l1) by (apply nth_error_Some; congruence).
        apply (lt_irrefl key). apply (Before n key); [lia|]. rewrite nth_error_map, EU, nth_error_app1, En by lia. simpl. congruence. }
      clear - Hb. induction l1 as [|x l1 IH]; simpl; auto. destruct (eqb_spec (fst x) key) as [E|]; [exfalso; eapply Hb; [left; eauto|auto]|]. apply IH. intros; apply Hb; right; auto. }
    assert (N2 : flat_map (fun e => if eqb (fst e) key then snd e else []) l2 = []).
    { assert (Hb : forall x, In x l2 -> fst x <> key).
      { intros x Hx Ek. apply In_nth_error in Hx as (n & En).
        assert (lt (fst e) (fst x)).
        { apply (sorted_nth_lt (map fst U) j1 (S j1 + n) _ _ VS); [lia|rewrite nth_error_map, E1; auto|].
          rewrite nth_error_map, EU, nth_error_app2 by lia. replace (S j1 + n - length l1) with (S n) by lia. simpl. rewrite En. auto. }
        apply (lt_irrefl key). eapply le_lt_trans; [apply (At e E1)|]. rewrite Ek in H. exact H. }
      clear - Hb. induction l2 as [|x l2 IH]; simpl; auto. destruct (eqb_spec (fst x) key) as [E|]; [exfalso; eapply Hb; [left; eauto|auto]|]. apply IH. intros; apply Hb; right; auto. }
    rewrite N1, N2, app_nil_r. auto. }
  destruct (nth_error U j1) as [[k0 vs]|] eqn:E1; cbn [option_map fst].
  - rewrite (Split _ eq_refl). cbn [fst snd]. destruct (eqb_spec k0 key) as [->|Hk].
    + rewrite Forall_forall in HF. pose proof (HF _ (nth_error_In _ _ E1)) as Hl. cbn [snd] in Hl.
      destruct (each_val_ok tbs U key vs j1 E1 fuel 0 tc1 ST1 ltac:(lia) ltac:(lia)) as (tc2 & Ev & ST2). rewrite Ev. cbn [skipn].
      destruct (shows_nav _ _ _ _ _ RewindVals ST2) as (tc3 & Er & ST3); [cbn [legal]; unfold at_key; cbn [kp]; rewrite E1; discriminate|exact I|].
      cbn [c_nav] in Er. rewrite Er. cbn [move kp vp] in ST3. exists tc3, j1, 0. auto.
    + exists tc1, j1, 0. auto.
  - exists tc1, j1, 0. split; [|auto]. f_equal. f_equal.
    assert (Hb : forall x, In x U -> fst x <> key).
    { intros x Hx Ek. apply In_nth_error in Hx as (n & En). apply nth_error_None in E1. assert (n < length U) by (apply nth_error_Some; congruence).
      apply (lt_irrefl key). apply (Before n key); [lia|]. rewrite nth_error_map, En. simpl. congruence. }
    unfold vals_under. clear - Hb. induction U as [|x l2 IH]; simpl; auto. destruct (eqb_spec (fst x) key) as [E|]; [exfalso; eapply Hb; [left; eauto|auto]|]. apply IH. intros; apply Hb; right; auto.
Qed.
End LookUp.

(** ** Answers *)
Section Answers.
Context {K V1 V2 D T R1 R2 R3 : Type} {OK : Ord K} {OV1 : Ord V1} {OV2 : Ord V2} {OD : Ord D} {TT : Time T}
  {D1 : Diff R1} {D2 : Diff R2} {D3 : Diff R3} {MU : Multiply R1 R2 R3}.
Variable comparison : T -> T -> bool.
Variable output_func : K -> V1 -> V2 -> D.
Notation proposal := (K * V1 * T * T * R1)%type.
Notation update := (D * T * T * R3)%type.
Notation answer := (answer comparison output_func (MU:=MU)).
Notation answers := (answers comparison output_func (MU:=MU)).
Notation same := (same_weights (A:=D*T*T) (R:=R3)).

Lemma answers_app_l a b (us : list (K * V2 * T * R2)) : answers (a ++ b) us = answers a us ++ answers b us.
Proof. apply flat_map_app. Qed.
Lemma answers_cons p ps (us : list (K * V2 * T * R2)) : answers (p :: ps) us = flat_map (answer p) us ++ answers ps us.
Proof. reflexivity. Qed.
Lemma answers_app_r a (us vs : list (K * V2 * T * R2)) : same (answers a (us ++ vs)) (answers a us ++ answers a vs).
Proof.
  induction a as [|p a IH]; [intros x; reflexivity|]. rewrite !answers_cons, flat_map_app. intros x. rewrite !weight_app, (IH x), weight_app. dperm.
Qed.
Lemma answer_one_plus a r1 r2 u x : weight (A:=D*T*T) (answer (a, dplus r1 r2) u) x = dplus (weight (A:=D*T*T) (answer (a, r1) u) x) (weight (A:=D*T*T) (answer (a, r2) u) x).
Proof.
  destruct a as [[[k1 v1] t1] i], u as [[[k2 v2] t2] r]. cbn [HalfJoinSpec.answer]. destruct (_ && _); [|symmetry; apply dplus_0_l].
  rewrite !weight_one, dmul_plus_l. destruct (eqb _ x); auto. symmetry; apply dplus_0_l.
Qed.
Lemma answer_one_zero a u x : weight (A:=D*T*T) (answer (a, dzero) u) x = dzero.
Proof.
  destruct a as [[[k1 v1] t1] i], u as [[[k2 v2] t2] r]. cbn [HalfJoinSpec.answer]. destruct (_ && _); auto. rewrite weight_one, dmul_0_l. destruct (eqb _ x); auto.
Qed.
Lemma weight_flat_map {A S} {OA : Ord A} {DS : Diff S} {E} (f : E -> list (A * S)) l a : weight (flat_map f l) a = dsum (map (fun e => weight (f e) a) l).
Proof. induction l as [|e l IH]; simpl; auto. rewrite weight_app, IH. auto. Qed.
Lemma answers_congr_l (a b : list proposal) (us : list (K * V2 * T * R2)) : same_weights (A:=K*V1*T*T) a b -> same (answers a us) (answers b us).
Proof.
  intros H. pose proof (flat_map_same_weights (A:=K*V1*T*T) (B:=D*T*T) (fun a r => flat_map (answer (a, r)) us)) as G.
  assert (Ef : forall l : list proposal, answers l us = flat_map (fun x : proposal => flat_map (answer (fst x, snd x)) us) l).
  { intros l. apply flat_map_ext. intros [x r]. auto. }
  rewrite !Ef. apply G; auto.
  - intros x y. rewrite weight_flat_map. apply dsum_map_zero. intros u _. apply answer_one_zero.
  - intros x r1 r2 y. rewrite !weight_flat_map, <- dsum_map_plus. apply dsum_map_ext. intros u _. apply answer_one_plus.
Qed.
Lemma answer_plus_r p a r1 r2 x : weight (A:=D*T*T) (answer p (a, dplus r1 r2)) x = dplus (weight (A:=D*T*T) (answer p (a, r1)) x) (weight (A:=D*T*T) (answer p (a, r2)) x).
Proof.
  destruct p as [[[[k1 v1] t1] i] r], a as [[k2 v2] t2]. cbn [HalfJoinSpec.answer]. destruct (_ && _); [|symmetry; apply dplus_0_l].
  rewrite !weight_one, dmul_plus_r. destruct (eqb _ x); auto. symmetry; apply dplus_0_l.
Qed.
Lemma answer_zero_r p a x : weight (A:=D*T*T) (answer p (a, dzero)) x = dzero.
Proof.
  destruct p as [[[[k1 v1] t1] i] r], a as [[k2 v2] t2]. cbn [HalfJoinSpec.answer]. destruct (_ && _); auto. rewrite weight_one, dmul_0_r. destruct (eqb _ x); auto.
Qed.
Lemma answer_congr_r p (us vs : list (K * V2 * T * R2)) : same_weights (A:=K*V2*T) us vs -> same (flat_map (answer p) us) (flat_map (answer p) vs).
Proof.
  intros H. pose proof (flat_map_same_weights (A:=K*V2*T) (B:=D*T*T) (fun a r => answer p (a, r)) (fun a => answer_zero_r p a) (fun a r1 r2 => answer_plus_r p a r1 r2) us vs H) as G.
  assert (Ef : forall l : list (K * V2 * T * R2), flat_map (answer p) l = flat_map (fun x => answer p (fst x, snd x)) l) by (intros l; apply flat_map_ext; intros [x r]; auto).
  rewrite !Ef. exact G.
Qed.

(** compaction is not noticed by a proposal it is held back for *)
Lemma alike_answer L p (us vs : list (K * V2 * T * R2)) : alike (D:=K*V2) L us vs ->
  (forall t t', indistinct L t t' -> comparison t (snd (fst p)) = comparison t' (snd (fst p))) -> beyond L (snd (fst (fst p))) ->
  same (flat_map (answer p) us) (flat_map (answer p) vs).
Proof.
  intros HA HC HB [[d tt] i']. destruct p as [[[[k1 v1] t1] i] r1]. cbn [fst snd] in *.
  set (g := fun t2 => comparison t2 i && eqb (join t2 t1) tt).
  set (at_g := fun c : list (K * V2 * T * R2) => map (fun u => (fst (fst u), snd u)) (filter (fun u => g (snd (fst u))) c)).
  set (f := fun (kv : K * V2) (r : R2) => if eqb k1 (fst kv) && eqb (output_func k1 v1 (snd kv)) d && eqb i i' then dmul r1 r else dzero : R3).
  assert (E1 : forall c, weight (A:=D*T*T) (flat_map (answer (k1, v1, t1, i, r1)) c) (d, tt, i') = lsum f (at_g c)).
  { intros c. unfold at_g, lsum. induction c as [|[[[k2 v2] t2] r2] c IH]; auto. cbn [flat_map]. rewrite weight_app, IH. clear IH.
    cbn [filter fst snd HalfJoinSpec.answer]. unfold g at 2. destruct (comparison t2 i); cbn [andb]; rewrite ?andb_true_r, ?andb_false_r.
    - assert (Ee : forall x, eqb (output_func k1 v1 v2, join t2 t1, i) (d, tt, x) = eqb (output_func k1 v1 v2) d && eqb (join t2 t1) tt && eqb i x).
      { intros x. destruct (eqb_spec (output_func k1 v1 v2, join t2 t1, i) (d, tt, x)) as [Ex|Ex]; [inversion Ex; rewrite !eqb_refl; auto|].
        destruct (eqb_spec (output_func k1 v1 v2) d), (eqb_spec (join t2 t1) tt), (eqb_spec i x); subst; auto; congruence. }
      destruct (eqb k1 k2) eqn:Ek.
      + rewrite weight_one, Ee. destruct (eqb (join t2 t1) tt); cbn [andb]; rewrite ?andb_true_r, ?andb_false_r; cbn [map dsum fold_right fst snd].
        * unfold f at 2. cbn [fst snd]. rewrite Ek. cbn [andb]. reflexivity.
        * cbn [andb]. rewrite dplus_0_l. auto.
      + rewrite weight_nil, dplus_0_l. destruct (eqb (join t2 t1) tt); auto. cbn [map dsum fold_right fst snd]. unfold f at 2. cbn [fst snd]. rewrite Ek. cbn [andb]. rewrite dplus_0_l. auto.
    - rewrite weight_nil, dplus_0_l. auto. }
  rewrite !E1. apply lsum_same_weights.
  - intros kv. unfold f. rewrite dmul_0_r. destruct (_ && _); auto.
  - intros kv a b. unfold f. rewrite dmul_plus_r. destruct (_ && _); auto. rewrite dplus_0_l; auto.
  - intros kv. assert (E2 : forall c, weight (at_g c) kv = total_at g c kv).
    { clear. intros c. unfold weight, total_at, at_g. f_equal. induction c as [|u c IH]; auto. cbn [filter]. destruct (g (snd (fst u))); cbn [map filter fst snd]; rewrite ?andb_true_r, ?andb_false_r; auto.
      destruct (eqb (fst (fst u)) kv); cbn [map filter fst snd]; rewrite IH; auto. }
    rewrite !E2. apply HA. intros t t' Ht. unfold g. rewrite (HC t t' Ht). f_equal. f_equal.
    assert (Le : forall a b, indistinct L a b -> tle (join a t1) (join b t1) = true).
    { intros a b Hab. apply join_lub; [|apply join_ub_r]. rewrite (Hab (join b t1)); [apply join_ub_l|]. eapply beyond_mono; [|exact HB]. apply join_ub_r. }
    apply tle_antisym; apply Le; auto. intros u Hu. symmetry; auto.
Qed.
(** later updates do not reach a proposal that has been released *)
Lemma released_answers ps F (us : list (K * V2 * T * R2)) : (forall f t i, tle f t = true -> comparison t i = true -> comparison f i = true) ->
  Forall (fun p => forall f, In f F -> comparison f (snd (fst p)) = false) ps -> Forall (fun u => beyond F (snd (fst u))) us -> answers ps us = [].
Proof.
  intros HC HP HU. induction HP as [|[[[[k1 v1] t1] i] r1] ps Hp _ IH]; auto. rewrite answers_cons, IH, app_nil_r. cbn [fst snd] in Hp.
  clear IH. induction HU as [|[[[k2 v2] t2] r2] us (f & Hf & Hl) _ IH]; auto. cbn [flat_map]. rewrite IH. cbn [fst snd] in Hl.
  cbn [HalfJoinSpec.answer]. destruct (comparison t2 i) eqn:E; [|rewrite andb_false_r; auto]. pose proof (HC _ _ _ Hl E). specialize (Hp f Hf). congruence.
Qed.
End Answers.

(** ** The stash *)
Section StashAdds.
Context {T P : Type} {TT : Time T}.
Notation proposal := P.
Lemma stash_add_perm (cap : T) (ps : list proposal) (stash : list (T * list proposal)) : Permutation (flat_map snd (stash_add cap ps stash)) (ps ++ flat_map snd stash).
Proof.
  induction stash as [|[c qs] stash IH]; cbn [stash_add flat_map snd]; auto. destruct (eqb c cap); cbn [flat_map snd].
  - rewrite app_assoc. apply Permutation_app_tail, Permutation_app_comm.
  - eapply perm_trans; [apply Permutation_app_head, IH|]. rewrite !app_assoc. apply Permutation_app_tail, Permutation_app_comm.
Qed.
Lemma stash_adds_perm : forall more stash : list (T * list proposal), Permutation (flat_map snd (stash_adds more stash)) (flat_map snd more ++ flat_map snd stash).
Proof.
  unfold stash_adds. induction more as [|[c ps] more IH]; intros stash; cbn [fold_left flat_map fst snd]; auto.
  eapply perm_trans; [apply IH|]. eapply perm_trans; [apply Permutation_app_head, stash_add_perm|]. rewrite !app_assoc. apply Permutation_app_tail, Permutation_app_comm.
Qed.
Lemma stash_add_forall (Q : T -> proposal -> Prop) (Qc : T -> Prop) cap ps stash : Qc cap /\ Forall (Q cap) ps -> Forall (fun e => Qc (fst e) /\ Forall (Q (fst e)) (snd e)) stash ->
  Forall (fun e => Qc (fst e) /\ Forall (Q (fst e)) (snd e)) (stash_add cap ps stash).
Proof.
  intros H HS. induction HS as [|[c qs] stash [Hc Hx] HS IH]; cbn [stash_add]; [constructor; auto|]. cbn [fst snd] in *. destruct (eqb_spec c cap) as [->|].
  - constructor; auto. cbn [fst snd]. split; [auto|]. apply Forall_app; tauto.
  - constructor; auto.
Qed.
Lemma stash_adds_forall (Q : T -> proposal -> Prop) (Qc : T -> Prop) : forall more stash, Forall (fun e => Qc (fst e) /\ Forall (Q (fst e)) (snd e)) more -> Forall (fun e => Qc (fst e) /\ Forall (Q (fst e)) (snd e)) stash ->
  Forall (fun e => Qc (fst e) /\ Forall (Q (fst e)) (snd e)) (stash_adds more stash).
Proof.
  unfold stash_adds. induction more as [|e more IH]; intros stash HM HS; cbn [fold_left]; auto. inversion HM; subst. apply IH; auto. apply stash_add_forall; auto.
Qed.

End StashAdds.

(** ** Processing proposals *)
Section Process.
Context {B M C K V1 V2 D T R1 R2 R3 : Type} {OK : Ord K} {OV1 : Ord V1} {OV2 : Ord V2} {OD : Ord D} {TT : Time T}
  {D1 : Diff R1} {D2 : Diff R2} {D3 : Diff R3} {MU : Multiply R1 R2 R3}.
Variable ops : BatchOps B M T. Variable contents : B -> list (K * V2 * T * R2). Variable laws : BatchLaws (D:=K*V2) ops contents.
Variable cops : CursorOps B C K V2 T R2. Variable new : C.
Hypothesis HR : readable ops contents laws cops new.
Variable comparison : T -> T -> bool.
Variable output_func : K -> V1 -> V2 -> D.
Notation proposal := (K * V1 * T * T * R1)%type.
Notation update := (D * T * T * R3)%type.
Notation answer := (answer comparison output_func (MU:=MU)).
Notation answers := (answers comparison output_func (MU:=MU)).
Notation same := (same_weights (A:=D*T*T) (R:=R3)).
Notation samep := (same_weights (A:=K*V1*T*T) (R:=R1)).
Definition pkey (p : proposal) : K := fst (fst (fst (fst p))).
Definition ptime (p : proposal) : T := snd (fst (fst p)).
Definition pinit (p : proposal) : T := snd (fst p).
Definition uinit (u : update) : T := snd (fst u).
Definition utime (u : update) : T := snd (fst (fst u)).

Lemma hj_emit_ok (p : proposal) (v : V2) (ts : list (T * R2)) : same (hj_emit comparison output_func (MU:=MU) p v ts) (flat_map (fun td => answer p (pkey p, v, fst td, snd td)) ts).
Proof.
  destruct p as [[[[k v1] t1] i] r1]. unfold pkey. cbn [fst snd]. unfold hj_emit.
  set (X := map (fun td : T * R2 => (join (fst td) t1, snd td)) (filter (fun td => comparison (fst td) i) ts)).
  assert (E : same (map (fun td => (output_func k v1 v, fst td, i, dmul r1 (snd td))) (consolidate X)) (map (fun td => (output_func k v1 v, fst td, i, dmul r1 (snd td))) X)).
  { pose proof (flat_map_same_weights (A:=T) (B:=D*T*T) (fun (t : T) (r : R2) => [(output_func k v1 v, t, i, dmul r1 r)])) as G.
    assert (Ef : forall l : list (T * R2), map (fun td => (output_func k v1 v, fst td, i, dmul r1 (snd td))) l = flat_map (fun td => [(output_func k v1 v, fst td, i, dmul r1 (snd td))]) l).
    { induction l as [|x l IH]; simpl; [auto|rewrite IH; auto]. }
    rewrite !Ef. apply G; [| |apply consolidate_weight].
    - intros t b. rewrite weight_one, dmul_0_r. destruct (eqb _ _); auto.
    - intros t a b c. rewrite !weight_one, dmul_plus_r. destruct (eqb _ _); auto. rewrite dplus_0_l; auto. }
  eapply same_weights_trans; [exact E|]. clear E.
  assert (Ea : map (fun td => (output_func k v1 v, fst td, i, dmul r1 (snd td))) X = flat_map (fun td => answer (k, v1, t1, i, r1) (k, v, fst td, snd td)) ts); [|rewrite Ea; apply same_weights_refl].
  unfold X. clear X. induction ts as [|[t r] ts IH]; auto. cbn [filter flat_map fst snd]. rewrite <- IH. clear IH. cbn [HalfJoinSpec.answer]. rewrite eqb_refl. cbn [andb].
  destruct (comparison t i); auto.
Qed.
Lemma hj_emit_times (p : proposal) (v : V2) (ts : list (T * R2)) u : In u (hj_emit comparison output_func (MU:=MU) p v ts) -> uinit u = pinit p /\ tle (ptime p) (utime u) = true.
Proof.
  destruct p as [[[[k v1] t1] i] r1]. unfold hj_emit, uinit, utime, pinit, ptime. cbn [fst snd]. intros H. apply in_map_iff in H as ([t r] & <- & H). cbn [fst snd]. split; auto.
  apply (in_map fst) in H. apply consolidate_incl in H. rewrite map_map in H. apply in_map_iff in H as (x & Ex & _). cbn [fst] in Ex. rewrite <- Ex. apply join_ub_r.
Qed.
Lemma look_up_answers (p : proposal) (U : trie K V2 T R2) :
  same (flat_map (fun e => hj_emit comparison output_func (MU:=MU) p (fst e) (snd e)) (vals_under U (pkey p))) (flat_map (answer p) (CursorSpec.flat U)).
Proof.
  unfold vals_under, CursorSpec.flat. induction U as [|[k vs] U IH]; [intros x; reflexivity|]. cbn [flat_map fst snd]. rewrite !flat_map_app. apply same_weights_app; [|exact IH].
  clear IH. destruct (eqb_spec k (pkey p)) as [->|Hk].
  - induction vs as [|[v ts] vs IH]; [intros x; reflexivity|]. cbn [flat_map fst snd]. rewrite flat_map_app. apply same_weights_app; [|exact IH].
    rewrite flat_map_concat_map, map_map, <- flat_map_concat_map. apply hj_emit_ok.
  - assert (E : flat_map (answer p) (flat_map (fun vu : V2 * list (T * R2) => map (fun tr => (k, fst vu, fst tr, snd tr)) (snd vu)) vs) = []); [|rewrite E; intros x; reflexivity].
    induction vs as [|[v ts] vs IH]; auto. cbn [flat_map fst snd]. rewrite flat_map_app, IH, app_nil_r. clear IH. induction ts as [|[t r] ts IH]; auto. cbn [map flat_map fst snd]. rewrite IH, app_nil_r.
    destruct p as [[[[k1 v1] t1] i] r1]. unfold pkey in Hk. cbn [fst snd] in Hk. cbn [HalfJoinSpec.answer]. destruct (eqb_spec k1 k); [congruence|auto].
Qed.

(** the proposals released by a frontier *)
Definition released (F : list T) (p : proposal) : Prop := forall f, In f F -> comparison f (pinit p) = false.
Definition blocked (F : list T) (p : proposal) : Prop := exists f, In f F /\ comparison f (pinit p) = true.
Lemma ask_yielded y ys y' ys' : ask y ys = (y', ys') -> y' = false -> y = false.
Proof. unfold ask. destruct y; auto. intros E; inversion E; congruence. Qed.
Lemma ask_no ys : Forall (eq false) ys -> exists ys', ask false ys = (false, ys') /\ Forall (eq false) ys'.
Proof. intros H. destruct H as [|y ys <- H]; simpl; eauto. Qed.

Inductive by_key : list proposal -> Prop :=
| bk_nil : by_key []
| bk_cons : forall p ps, Forall (fun q => le (pkey p) (pkey q)) ps -> by_key ps -> by_key (p :: ps).
Lemma consolidated_by_key (ps : list proposal) : consolidated (A:=K*V1*T*T) ps -> by_key ps.
Proof.
  induction ps as [|p ps IH]; intros H; [constructor|]. apply consolidated_cons_inv in H as (H1 & _ & H3). constructor; auto.
  eapply Forall_impl; [|exact H3]. cbv beta. intros q Hq. destruct p as [[[[k v] t] i] r], q as [[[[k' v'] t'] i'] r']. unfold pkey. cbn [fst snd] in *.
  apply lt_pair in Hq as [Hq|[Hq _]]; [|inversion Hq; apply le_refl]. apply lt_pair in Hq as [Hq|[Hq _]]; [|inversion Hq; apply le_refl].
  apply lt_pair in Hq as [Hq|[Hq _]]; [apply le_lteq; auto|subst; apply le_refl].
Qed.

Lemma hj_proposals_ok tbs (U : trie K V2 T R2) fuel F : strictly_sorted (map fst U) -> Forall (fun e => length (snd e) <= fuel) U ->
  forall ps y ys tc j jv, by_key ps -> shows (cl_ops cops) tbs U tc {| kp := j; vp := jv |} -> Forall (fun p => before U j (pkey p)) ps ->
  exists ps' outs y' A, hj_proposals cops comparison output_func (MU:=MU) fuel tbs F y ys tc ps = Some (ps', outs, y') /\
    samep ps (A ++ ps') /\ incl A ps /\ Forall (released F) A /\ same outs (answers A (CursorSpec.flat U)) /\
    Forall (fun u => exists p, In p ps /\ uinit u = pinit p /\ tle (ptime p) (utime u) = true) outs /\
    Forall (fun p => snd p = dzero \/ In p ps) ps' /\
    (fst y' = false -> Forall (fun p => snd p = dzero \/ blocked F p) ps') /\ (fst y' = false -> y = false) /\
    (y = false -> Forall (eq false) ys -> fst y' = false /\ Forall (eq false) (snd y')).
Proof.
  intros HS HF. induction ps as [|p ps IH]; intros y ys tc j jv HK HT HB.
  { exists [], [], (y, ys), []. cbn [hj_proposals]. split; [reflexivity|]. split; [intros x; reflexivity|]. split; [intros x []|]. split; [constructor|]. split; [intros x; reflexivity|].
    split; [constructor|]. split; [constructor|]. split; [constructor|]. auto. }
  inversion HK as [|? ? Hle HK']; subst. inversion HB as [|? ? Hb HB']; subst.
  cbn [hj_proposals]. destruct p as [[[[k v] t] i] r]. set (p := (k, v, t, i, r)) in *. destruct (ask y ys) as [y1 ys1] eqn:Ea.
  destruct (negb y1 && negb (existsb (fun f => comparison f i) F)) eqn:Eg.
  - apply andb_true_iff in Eg as [Ey Ex]. apply negb_true_iff in Ey, Ex. subst y1.
    destruct (look_up_ok cops (hj_emit comparison output_func (MU:=MU) p) tbs U fuel j jv tc k HS HF HT Hb) as (tc1 & j1 & jv1 & E1 & T1 & B1). rewrite E1.
    destruct (IH false ys1 tc1 j1 jv1 HK' T1) as (ps' & outs & y' & A & E & P1 & P2 & P3 & P4 & P5 & P6 & P7 & P8 & P9).
    { eapply Forall_impl; [|exact Hle]. cbv beta. intros q Hq n k0 Hn E0. eapply lt_le_trans; [eapply B1; eauto|exact Hq]. }
    rewrite E. exists ((k, v, t, i, dzero) :: ps'), (flat_map (fun e => hj_emit comparison output_func p (fst e) (snd e)) (vals_under U k) ++ outs), y', (p :: A).
    split; [reflexivity|]. split.
    { intros a. cbn [app]. rewrite weight_cons', (weight_cons' p (A ++ _)), weight_app, weight_cons', (P1 a), weight_app. cbn [fst snd].
      assert (Ez : (if eqb (k, v, t, i) a then dzero else dzero) = (dzero : R1)) by (destruct (eqb _ _); auto). rewrite Ez, dplus_0_l. auto. }
    split; [intros x [<-|Hx]; [left; auto|right; auto]|]. split.
    { constructor; auto. intros f Hf. unfold p, pinit. cbn [fst snd]. destruct (comparison f i) eqn:Ec; auto.
      assert (existsb (fun f => comparison f i) F = true) by (apply existsb_exists; eauto). congruence. }
    split; [rewrite answers_cons; apply same_weights_app; [exact (look_up_answers p U)|exact P4]|]. split.
    { apply Forall_app. split.
      - apply Forall_forall. intros u Hu. apply in_flat_map in Hu as (e & _ & Hu). exists p. split; [left; auto|]. eapply hj_emit_times; eauto.
      - eapply Forall_impl; [|exact P5]. cbv beta. intros u (q & Hq & Hu). exists q. split; [right|]; auto. }
    split; [constructor; [left; auto|eapply Forall_impl; [|exact P6]; cbv beta; intros q [Hq|Hq]; [left; auto|right; right; auto]]|].
    split; [intros Hy; constructor; [left; auto|auto]|]. split.
    { intros Hy. apply (ask_yielded _ _ _ _ Ea); auto. }
    intros Hy Hn. subst y. destruct (ask_no ys Hn) as (ys2 & Ea2 & Hn2). rewrite Ea in Ea2. inversion Ea2; subst. auto.
  - destruct (IH y1 ys1 tc j jv HK' HT HB') as (ps' & outs & y' & A & E & P1 & P2 & P3 & P4 & P5 & P6 & P7 & P8 & P9).
    rewrite E. exists (p :: ps'), outs, y', A. split; [reflexivity|]. split.
    { intros a. rewrite weight_app, weight_cons', (weight_cons' p ps'), (P1 a), weight_app. dperm. }
    split; [intros x Hx; right; auto|]. split; [auto|]. split; [auto|]. split.
    { eapply Forall_impl; [|exact P5]. cbv beta. intros u (q & Hq & Hu). exists q. split; [right|]; auto. }
    split; [constructor; [right; left; auto|eapply Forall_impl; [|exact P6]; cbv beta; intros q [Hq|Hq]; [left; auto|right; right; auto]]|]. split.
    { intros Hy. constructor; [|auto]. right. rewrite (P8 Hy) in Eg. cbn [negb andb] in Eg. apply negb_false_iff in Eg. apply existsb_exists in Eg as (f & Hf & Hc). exists f. auto. }
    split; [intros Hy; apply (ask_yielded _ _ _ _ Ea); auto|].
    intros Hy Hn. subst y. destruct (ask_no ys Hn) as (ys2 & Ea2 & Hn2). rewrite Ea in Ea2. inversion Ea2; subst. auto.
Qed.

(** the trace can be read, and is [alike] the history *)
Definition reads (s : Spine B M T) (bs : list B) : Prop := batches_through ops s [] = Some bs /\ Forall (bl_ok _ _ laws) bs.

Lemma process_ok s bs F ys ps : reads s bs ->
  exists ps' outs y' A, process_proposals ops cops new comparison output_func (MU:=MU) s F ys ps = Some (ps', outs, y') /\
    samep ps (A ++ ps') /\ incl (map fst A) (map fst ps) /\ Forall (released F) A /\ same outs (answers A (flat_map contents bs)) /\
    Forall (fun u => exists p, In (fst p) (map fst ps) /\ uinit u = pinit p /\ tle (ptime p) (utime u) = true) outs /\
    Forall (fun p => snd p = dzero \/ In (fst p) (map fst ps)) ps' /\
    (fst y' = false -> Forall (fun p => snd p = dzero \/ blocked F p) ps') /\
    (Forall (eq false) ys -> fst y' = false /\ Forall (eq false) (snd y')).
Proof.
  intros [E HB]. unfold process_proposals. rewrite E. destruct (cursor_list_no_seek ops contents laws cops new HR bs HB) as (tc & Ec & Pc). rewrite Ec.
  set (U := union_trie (tries contents bs)) in *. destruct (union_length contents bs) as [_ UL]. fold U in UL. rewrite (sum_len_contents ops contents laws bs HB).
  destruct (hj_proposals_ok bs U (length (flat_map contents bs)) F (union_sorted contents bs) UL (consolidate (A:=K*V1*T*T) ps) false ys tc 0 0)
    as (ps' & outs & y' & A & E1 & P1 & P2 & P3 & P4 & P5 & P6 & P7 & P8 & P9).
  { apply consolidated_by_key, consolidate_consolidated. }
  { apply shows_start. exact Pc. }
  { apply Forall_forall. intros p _ n k0 Hn. lia. }
  assert (HI : forall p, In p (consolidate (A:=K*V1*T*T) ps) -> In (fst p) (map fst ps)) by (intros p Hp; apply consolidate_incl, in_map, Hp).
  exists ps', outs, y', A. split; [exact E1|]. split; [eapply same_weights_trans; [|exact P1]; apply same_weights_sym, consolidate_weight|].
  split; [intros x Hx; apply in_map_iff in Hx as (p & <- & Hp); auto|]. split; [auto|]. split.
  { eapply same_weights_trans; [exact P4|]. clear - A contents bs MU. induction A as [|p A IH]; [intros x; reflexivity|]. rewrite !answers_cons. apply same_weights_app; auto.
    apply answer_congr_r. apply union_weights. }
  split; [eapply Forall_impl; [|exact P5]; cbv beta; intros u (p & Hp & Hu); exists p; auto|].
  split; [eapply Forall_impl; [|exact P6]; cbv beta; intros p [Hp|Hp]; auto|]. split; [auto|]. auto.
Qed.

(** ** What is left of an entry *)
Lemma hj_position_ok (t : T) chain : beyond chain t -> exists n c, hj_position t chain = Some n /\ nth_error chain n = Some c /\ tle c t = true.
Proof.
  induction chain as [|c chain IH]; intros H; [destruct (beyond_nil _ H)|]. cbn [hj_position]. destruct (tle c t) eqn:E; [exists 0, c; auto|].
  apply beyond_cons in H as [H|H]; [congruence|]. destruct (IH H) as (n & c' & E1 & E2 & E3). rewrite E1. exists (S n), c'. auto.
Qed.
Definition timed (e : T * list proposal) : Prop := Forall (fun p => tle (fst e) (pinit p) = true) (snd e).
Lemma peel_ok (Q : proposal -> Prop) chain : forall ps additions, length additions = length chain -> Forall (fun p => beyond chain (pinit p) /\ Q p) ps ->
  Forall timed (List.combine chain additions) -> Forall (Forall Q) additions ->
  exists additions', hj_peel chain additions ps = Some additions' /\ length additions' = length chain /\ Forall timed (List.combine chain additions') /\ Forall (Forall Q) additions' /\
    Permutation (concat additions') (concat additions ++ ps).
Proof.
  induction ps as [|p ps IH]; intros additions HL HP HT HQ; cbn [hj_peel].
  { exists additions. rewrite app_nil_r. auto. }
  inversion HP as [|? ? [Hb Hq] HP']; subst. destruct (hj_position_ok _ _ Hb) as (n & c & E1 & E2 & E3). unfold pinit in E1. rewrite E1.
  assert (Hn : n < length additions) by (rewrite HL; apply nth_error_Some; congruence).
  destruct (nth_error additions n) as [a|] eqn:Ea; [|apply nth_error_None in Ea; lia].
  destruct (nth_error_split _ _ Ea) as (a1 & a2 & EA & La). destruct (nth_error_split _ _ E2) as (c1 & c2 & EC & Lc). subst additions.
  assert (En : nth n (a1 ++ a :: a2) [] = a) by (apply nth_error_nth; auto). rewrite En.
  assert (Ef : firstn n (a1 ++ a :: a2) = a1) by (rewrite <- La, firstn_app, Nat.sub_diag, firstn_all, firstn_O, app_nil_r; auto). rewrite Ef.
  assert (Es : skipn (S n) (a1 ++ a :: a2) = a2). { rewrite <- La. rewrite skipn_app. rewrite skipn_all2 by lia. replace (S (length a1) - length a1) with 1 by lia. auto. }
  rewrite Es.
  assert (HLc : length c1 = length a1) by lia.
  assert (Comb : forall x, List.combine chain (a1 ++ x :: a2) = List.combine c1 a1 ++ (c, x) :: List.combine c2 a2).
  { intros x. subst chain. clear - HLc. revert a1 HLc. induction c1 as [|y c1 IH]; intros [|z a1] HLc; try discriminate; cbn [app List.combine]; auto. f_equal. apply IH. simpl in HLc. lia. }
  rewrite Comb in HT. apply Forall_app in HT as [T1 T2]. inversion T2 as [|? ? T3 T4]; subst x l. apply Forall_app in HQ as [Q1 Q2]. inversion Q2 as [|? ? Q3 Q4]; subst x l.
  destruct (IH (a1 ++ (a ++ [p]) :: a2)) as (ad & E & A1 & A2 & A3 & A4).
  - rewrite app_length in *. simpl in *. lia.
  - auto.
  - rewrite Comb. apply Forall_app. split; auto. constructor; auto. unfold timed in *. cbn [fst snd] in *. apply Forall_app. auto.
  - apply Forall_app. split; auto. constructor; auto. apply Forall_app; auto.
  - exists ad. split; [auto|]. split; [auto|]. split; [auto|]. split; [auto|]. eapply perm_trans; [exact A4|]. rewrite !concat_app. simpl. rewrite <- !app_assoc.
    apply Permutation_app_head. apply Permutation_app_head. simpl. apply Permutation_middle.
Qed.
Lemma delay_ok cap (more : list (T * list proposal)) : Forall (fun e => tle cap (fst e) = true) more -> hj_delay cap more = Some more.
Proof. induction 1 as [|[t ps] more H _ IH]; cbn [hj_delay]; auto. cbn [fst] in H. unfold delayed. rewrite H, IH. auto. Qed.

Lemma combine_snd {X Y} : forall (l : list X) (l' : list Y), length l' = length l -> map snd (List.combine l l') = l'.
Proof. induction l as [|x l IH]; intros [|y l'] H; try discriminate; simpl; auto. rewrite IH; auto. Qed.
Lemma remaining_ok (Q : proposal -> Prop) cap (ps : list proposal) : Forall (fun p => is_zero (snd p) = true \/ (tle cap (pinit p) = true /\ Q p)) ps ->
  exists ps' more, hj_remaining cap ps = Some (ps', more) /\ samep ps (ps' ++ flat_map snd more) /\ timed (cap, ps') /\ Forall Q ps' /\
    Forall (fun e => tle cap (fst e) = true /\ timed e /\ Forall Q (snd e)) more.
Proof.
  intros HP. unfold hj_remaining. pose proof (weight_filter_zero ps) as HW. set (qs := filter (fun p => negb (is_zero (snd p))) ps) in *.
  assert (HQ : Forall (fun p => tle cap (pinit p) = true /\ Q p) qs).
  { apply Forall_forall. intros p Hp. apply filter_In in Hp as [Hp Hz]. rewrite Forall_forall in HP. destruct (HP p Hp) as [H|H]; auto. rewrite H in Hz. discriminate. }
  clearbody qs. clear HP. set (chain := ac_from (map (fun p : proposal => snd (fst p)) qs)).
  assert (HC : Forall (fun p => beyond chain (pinit p)) qs).
  { apply Forall_forall. intros p Hp. apply ac_from_beyond. apply beyond_in. apply in_map_iff. exists p. auto. }
  assert (HI : Forall (fun c => tle cap c = true) chain).
  { apply Forall_forall. intros c Hc. unfold chain in Hc. apply ac_extend_incl in Hc as [[]|Hc]. apply in_map_iff in Hc as (p & <- & Hp). rewrite Forall_forall in HQ. apply (HQ p Hp). }
  assert (Keep : exists ps' more, Some (qs, @nil (T * list proposal)) = Some (ps', more) /\ samep ps (ps' ++ flat_map snd more) /\ timed (cap, ps') /\ Forall Q ps' /\
    Forall (fun e => tle cap (fst e) = true /\ timed e /\ Forall Q (snd e)) more).
  { exists qs, []. split; [auto|]. split; [simpl; rewrite app_nil_r; apply same_weights_sym; auto|]. split; [eapply Forall_impl; [|exact HQ]; cbv beta; tauto|].
    split; [eapply Forall_impl; [|exact HQ]; cbv beta; tauto|constructor]. }
  destruct ((length chain =? 1) && negb (ac_less_equal chain cap)) eqn:E1.
  - apply andb_true_iff in E1 as [E1 _]. apply Nat.eqb_eq in E1. destruct chain as [|c [|? ?]]; try discriminate. inversion HI as [|? ? Hc _]; subst. cbn [map].
    rewrite delay_ok by (constructor; auto). exists [], [(c, qs)]. split; [auto|]. split; [simpl; rewrite app_nil_r; apply same_weights_sym; auto|]. split; [constructor|]. split; [constructor|].
    constructor; [|constructor]. cbn [fst snd]. split; [auto|]. split.
    + unfold timed. cbn [fst snd]. eapply Forall_impl; [|exact HC]. cbv beta. intros p (f & [<-|[]] & Hf). auto.
    + eapply Forall_impl; [|exact HQ]. cbv beta. tauto.
  - destruct (1 <? length chain) eqn:E2; [|exact Keep].
    destruct (peel_ok Q chain qs (repeat [] (length chain))) as (ad & E & A1 & A2 & A3 & A4).
    + apply repeat_length.
    + rewrite Forall_forall in *. intros p Hp. split; [auto|]. apply HQ; auto.
    + clear. induction chain as [|c chain IH]; simpl; constructor; auto. constructor.
    + apply Forall_forall. intros l Hl. apply repeat_spec in Hl. subst. constructor.
    + rewrite E. rewrite delay_ok.
      2:{ apply Forall_forall. intros [c l] Hx. apply in_combine_l in Hx. rewrite Forall_forall in HI. apply HI; auto. }
      exists [], (List.combine chain ad). split; [auto|]. split.
      { cbn [app]. rewrite flat_map_concat_map, combine_snd by auto. eapply same_weights_trans; [apply same_weights_sym, HW|]. apply weight_perm. apply Permutation_sym. eapply perm_trans; [exact A4|].
        assert (Ez : concat (repeat (@nil proposal) (length chain)) = []) by (generalize (length chain); induction n; simpl; auto). rewrite Ez. auto. }
      split; [constructor|]. split; [constructor|]. apply Forall_forall. intros [c l] Hx. cbn [fst snd]. rewrite Forall_forall in HI, A2, A3. split; [apply HI; eapply in_combine_l; eauto|].
      split; [apply (A2 _ Hx)|]. apply A3. eapply in_combine_r; eauto.
Qed.

Section Stash.
Variable s : Spine B M T. Variable bs : list B. Hypothesis Hs : reads s bs.
Variable F2 : list T.
Definition entry_ok (e : T * list proposal) : Prop := Forall (fun p => tle (fst e) (pinit p) = true /\ tle (pinit p) (ptime p) = true) (snd e).
(** what is owed is not released, unless the operator yielded *)
Definition waits (c : T) (p : proposal) : Prop := ac_less_equal F2 c = true \/ blocked F2 p.

Lemma stash_ok : forall stash y ys, Forall entry_ok stash ->
  exists stash' more outs y' A, hj_stash ops cops new comparison output_func (MU:=MU) s F2 y ys stash = Some (stash', more, outs, y') /\
    samep (flat_map snd stash) (A ++ flat_map snd stash' ++ flat_map snd more) /\
    Forall (fun p => released F2 p /\ exists c, In c (map fst stash) /\ tle c (pinit p) = true /\ tle (pinit p) (ptime p) = true) A /\
    same (flat_map snd outs) (answers A (flat_map contents bs)) /\
    Forall (fun o => In (fst o) (map fst stash) /\ Forall (fun u => tle (fst o) (uinit u) = true /\ tle (uinit u) (utime u) = true) (snd o)) outs /\
    Forall (fun e => In (fst e) (map fst stash) /\ entry_ok e) stash' /\ Forall (fun e => beyond (map fst stash) (fst e) /\ entry_ok e) more /\
    (y' = false -> Forall (fun e => Forall (waits (fst e)) (snd e)) stash' /\ Forall (fun e => Forall (waits (fst e)) (snd e)) more) /\ (y' = false -> y = false) /\
    (y = false -> Forall (eq false) ys -> y' = false).
Proof.
  induction stash as [|[cap ps] stash IH]; intros y ys HE; cbn [hj_stash].
  { exists [], [], [], y, []. split; [reflexivity|]. split; [intros x; reflexivity|]. split; [constructor|]. split; [intros x; reflexivity|]. split; [constructor|]. split; [constructor|]. split; [constructor|]. split; [split; constructor|]. auto. }
  inversion HE as [|? ? H1 HE']; subst. unfold entry_ok in H1. cbn [fst snd] in H1. destruct (ask y ys) as [y1 ys1] eqn:Ea.
  destruct (negb y1 && negb (ac_less_equal F2 cap)) eqn:Eg.
  - apply andb_true_iff in Eg as [Ey Ex]. apply negb_true_iff in Ey. subst y1.
    destruct (process_ok s bs F2 ys1 ps Hs) as (ps1 & us & [y2 ys2] & A1 & E1 & P1 & P2 & P3 & P4 & P5 & P6 & P7 & P8). rewrite E1. cbn [fst snd] in *.
    assert (Hfst : forall p, In (fst p) (map fst ps) -> tle cap (pinit p) = true /\ tle (pinit p) (ptime p) = true).
    { intros p Hp. apply in_map_iff in Hp as (q & Eq & Hq). rewrite Forall_forall in H1. unfold pinit, ptime. rewrite <- Eq. apply (H1 q Hq). }
    destruct (remaining_ok (fun p => tle cap (pinit p) = true /\ tle (pinit p) (ptime p) = true /\ (y2 = false -> blocked F2 p)) cap ps1) as (ps2 & more1 & E2 & W2 & T2 & Q2 & M2).
    { rewrite Forall_forall in *. intros p Hp. destruct (P6 p Hp) as [H|H]; [left; rewrite H; apply is_zero_dzero|]. destruct (is_zero (snd p)) eqn:Ez; [left; auto|]. right. destruct (Hfst p H). split; [auto|]. split; [auto|]. split; [auto|].
      intros Hy. specialize (P7 Hy). destruct (P7 p Hp) as [Hd|Hd]; auto. rewrite Hd, is_zero_dzero in Ez. discriminate. }
    rewrite E2. destruct (IH y2 ys2 HE') as (stash' & more & outs & y' & A & E & I1 & I2 & I3 & I4 & I5 & I6 & I7 & I8 & I9). rewrite E.
    exists ((cap, ps2) :: stash'), (stash_adds more1 more), ((cap, us) :: outs), y', (A1 ++ A). split; [reflexivity|].
    split.
    { intros a. cbn [flat_map snd]. rewrite !weight_app, (weight_perm _ _ (stash_adds_perm more1 more) a), weight_app, (P1 a), weight_app, (W2 a), weight_app, (I1 a), !weight_app. dperm. }
    split.
    { apply Forall_app. split.
      - rewrite Forall_forall in *. intros p Hp. split; [auto|]. exists cap. split; [left; auto|]. apply Hfst, P2, in_map, Hp.
      - eapply Forall_impl; [|exact I2]. cbv beta. intros p (Hr & c & Hc & Hl). split; [auto|]. exists c. split; [right|]; auto. }
    split; [cbn [flat_map snd]; rewrite answers_app_l; apply same_weights_app; auto|].
    split.
    { constructor; cbn [fst snd map].
      - split; [left; auto|]. eapply Forall_impl; [|exact P5]. cbv beta. intros u (p & Hp & E3 & E4). destruct (Hfst p Hp) as [F1 F3]. rewrite E3. split; [auto|]. eapply tle_trans; eauto.
      - eapply Forall_impl; [|exact I4]. cbv beta. intros o [Ho Hu]. split; [right|]; auto. }
    split.
    { constructor; cbn [fst snd map].
      - split; [left; auto|]. unfold entry_ok. cbn [fst snd]. eapply Forall_impl; [|exact Q2]. cbv beta. tauto.
      - eapply Forall_impl; [|exact I5]. cbv beta. intros o [Ho Hu]. split; [right|]; auto. }
    assert (M3 : Forall (fun e => beyond (map fst ((cap, ps) :: stash)) (fst e) /\ Forall (fun p => (tle (fst e) (pinit p) = true /\ tle (pinit p) (ptime p) = true) /\ (y2 = false -> blocked F2 p)) (snd e)) more1).
    { eapply Forall_impl; [|exact M2]. cbv beta. intros e (C1 & C2 & C3). split; [exists cap; split; [left; auto|auto]|]. unfold timed in C2. rewrite Forall_forall in *. intros p Hp. destruct (C3 p Hp) as (? & ? & ?). auto. }
    split.
    { apply (stash_adds_forall (fun c p => tle c (pinit p) = true /\ tle (pinit p) (ptime p) = true) (fun c => beyond (map fst ((cap, ps) :: stash)) c)).
      - eapply Forall_impl; [|exact M3]. cbv beta. intros e [C1 C2]. split; [auto|]. eapply Forall_impl; [|exact C2]. cbv beta. tauto.
      - eapply Forall_impl; [|exact I6]. cbv beta. intros e [C1 C2]. split; [apply beyond_cons; auto|auto]. }
    split.
    { intros Hy. destruct (I7 Hy) as [W3 W4]. specialize (I8 Hy). split.
      - constructor; auto. cbn [fst snd]. eapply Forall_impl; [|exact Q2]. cbv beta. intros p (_ & _ & Hw). right. auto.
      - assert (Forall (fun e => True /\ Forall (waits (fst e)) (snd e)) (stash_adds more1 more)) as G.
        { apply (stash_adds_forall waits (fun _ => True)).
          - eapply Forall_impl; [|exact M3]. cbv beta. intros e [_ C2]. split; [auto|]. eapply Forall_impl; [|exact C2]. cbv beta. intros p [_ Hw]. right; auto.
          - eapply Forall_impl; [|exact W4]. cbv beta. auto. }
        eapply Forall_impl; [|exact G]. cbv beta. tauto. }
    split; [intros Hy; apply (ask_yielded _ _ _ _ Ea); auto|].
    intros Hy Hn. subst y. destruct (ask_no ys Hn) as (ys3 & Ea2 & Hn2). rewrite Ea in Ea2. inversion Ea2; subst. destruct (P8 Hn2) as [-> Hn3]. auto.
  - destruct (IH y1 ys1 HE') as (stash' & more & outs & y' & A & E & I1 & I2 & I3 & I4 & I5 & I6 & I7 & I8 & I9). rewrite E.
    exists ((cap, ps) :: stash'), more, outs, y', A. split; [reflexivity|]. split.
    { intros a. cbn [flat_map snd]. rewrite !weight_app, (I1 a), !weight_app. dperm. }
    split.
    { eapply Forall_impl; [|exact I2]. cbv beta. intros p (Hr & c & Hc & Hl). split; [auto|]. exists c. split; [right|]; auto. }
    split; [auto|].
    split; [eapply Forall_impl; [|exact I4]; cbv beta; intros o [Ho Hu]; split; [right|]; auto|].
    split.
    { constructor; cbn [fst snd map]; [split; [left; auto|exact H1]|]. eapply Forall_impl; [|exact I5]; cbv beta; intros o [Ho Hu]; split; [right|]; auto. }
    split; [eapply Forall_impl; [|exact I6]; cbv beta; intros e [C1 C2]; split; [apply beyond_cons; auto|auto]|].
    split.
    { intros Hy. destruct (I7 Hy) as [W3 W4]. split; auto. constructor; auto. cbn [fst snd]. rewrite (I8 Hy) in Eg. cbn [negb andb] in Eg. apply negb_false_iff in Eg. apply Forall_forall. intros p _. left. auto. }
    split; [intros Hy; apply (ask_yielded _ _ _ _ Ea); auto|].
    intros Hy Hn. subst y. destruct (ask_no ys Hn) as (ys3 & Ea2 & Hn2). rewrite Ea in Ea2. inversion Ea2; subst. auto.
Qed.
End Stash.
End Process.

(** ** The operator *)
Section World.
Context {B M C K V1 V2 D T R1 R2 R3 : Type} {OK : Ord K} {OV1 : Ord V1} {OV2 : Ord V2} {OD : Ord D} {TT : Time T}
  {D1 : Diff R1} {D2 : Diff R2} {D3 : Diff R3} {MU : Multiply R1 R2 R3}.
Variable ops : BatchOps B M T. Variable contents : B -> list (K * V2 * T * R2). Variable laws : BatchLaws (D:=K*V2) ops contents.
Variable cops : CursorOps B C K V2 T R2. Variable new : C.
Hypothesis HR : readable ops contents laws cops new.
Variable frontier_func : T -> list T.
Variable comparison : T -> T -> bool.
Variable output_func : K -> V1 -> V2 -> D.
Hypothesis HC : compatible comparison frontier_func.
Notation proposal := (K * V1 * T * T * R1)%type.
Notation update := (D * T * T * R3)%type.
Notation answer := (answer comparison output_func (MU:=MU)).
Notation answers := (answers comparison output_func (MU:=MU)).
Notation same := (same_weights (A:=D*T*T) (R:=R3)).
Notation samep := (same_weights (A:=K*V1*T*T) (R:=R1)).
Notation hworld := (hworld B M K V1 D T R1 R3).
Notation hstep := (hstep ops contents laws cops new frontier_func comparison output_func (MU:=MU)).
Notation hreaches := (hreaches ops contents laws cops new frontier_func comparison output_func (MU:=MU)).
Notation h_input := (h_input contents).
Notation activate := (h_activate ops cops new frontier_func comparison output_func (MU:=MU)).
Notation sub A B := (forall t, beyond A t -> beyond B t).

(** what the handle on the trace protects *)
Definition protects (handle : option (list T * list T)) (ts : list T) : Prop :=
  match handle with
  | Some (HL, _) => forall e t, In e ts -> beyond (frontier_func e) t -> beyond HL t
  | None => ts = []
  end.
Record hinv (w : hworld) (A : list proposal) : Prop := {
  hi_side : side_inv ops contents laws (hw_in w);
  hi_allowed : allowed (h_trace (hw_op w)) (sd_logical (hw_in w)) (sd_physical (hw_in w));
  hi_asked : samep (hw_asked w) (A ++ h_owed w);
  hi_released : Forall (released comparison (sd_front (hw_in w))) A;
  hi_produced : same (h_produced w) (answers A (h_input w));
  hi_stash : Forall entry_ok (h_stash (hw_op w));
  hi_protects : protects (h_trace (hw_op w)) (hw_front w ++ map fst (h_stash (hw_op w)));
  hi_out : Forall (fun o => Forall (fun u => tle (fst o) (uinit u) = true /\ tle (uinit u) (utime u) = true) (snd o)) (hw_out w)
}.

Lemma protects_beyond handle ts e : protects handle ts -> beyond ts e -> exists HL HP, handle = Some (HL, HP) /\ sub (frontier_func e) HL /\ HL <> [].
Proof.
  intros HP (f & Hf & Hl). destruct handle as [[HL HP']|]; [|simpl in HP; subst; destruct Hf]. exists HL, HP'. split; [auto|].
  assert (G : sub (frontier_func e) HL) by (intros t Ht; apply (HP f); auto; eapply (cf_monotone _ _ HC); eauto).
  split; [exact G|]. intros ->. apply (beyond_nil (T:=T) e). apply G, (cf_covers _ _ HC).
Qed.

Lemma hstarts_inv handle w : hstarts ops contents laws frontier_func handle w -> hinv w [].
Proof.
  intros ((e & HB) & HA & HP & E1 & E2 & E3). constructor; rewrite ?E2; unfold h_owed, h_produced; rewrite ?E1, ?E2, ?E3; simpl; auto; try (intros x; reflexivity).
  - eapply begins_inv; eauto.
  - destruct handle as [L P]. destruct HA as [H1 H2]. split; [auto|]. cbn [snd]. intros t Ht. apply H2. apply antichain_join_beyond in Ht. tauto.
  - destruct handle as [L P]. simpl. intros f t Hf Ht. rewrite app_nil_r in Hf. eapply HP; eauto.
Qed.

(** one activation *)
Lemma filter_nonempty_flat (stash : list (T * list proposal)) : flat_map snd (filter (fun e => match snd e with [] => false | _ => true end) stash) = flat_map snd stash.
Proof. induction stash as [|[c [|p ps]] stash IH]; simpl; auto. rewrite IH. auto. Qed.

Lemma activate_ok w A s' msgs1 msgs2 F' F2 ys : hinv w A -> delivers contents (hw_in w) msgs2 F2 s' ->
  Forall (fun m => beyond (hw_front w) (fst m) /\ well_timed m) msgs1 -> sub F' (hw_front w) ->
  exists h' outs again A', activate (sd_spine (hw_in w)) msgs1 F' F2 ys (hw_op w) = Some (h', outs, again) /\
    hinv {| hw_in := s'; hw_front := F'; hw_asked := hw_asked w ++ flat_map snd msgs1; hw_op := h'; hw_out := hw_out w ++ outs |} (A ++ A') /\
    Forall (fun o => beyond (hw_front w ++ map fst (h_stash (hw_op w))) (fst o)) outs /\
    Forall (fun e => beyond (hw_front w ++ map fst (h_stash (hw_op w))) (fst e)) (h_stash h') /\
    (Forall (eq false) ys -> again = false) /\ (again = false -> Forall (fun e => Forall (waits comparison F2 (fst e)) (snd e)) (h_stash h')).
Proof.
  intros HI (q' & Eq & Es' & HM & HF & HQ) Hmsgs Hfront.
  destruct HI as [I1 I2 I3 I4 I5 I6 I7 I8]. set (all := stash_adds msgs1 (h_stash (hw_op w))).
  assert (Hall : Forall (fun e => beyond (hw_front w ++ map fst (h_stash (hw_op w))) (fst e) /\ entry_ok e) all).
  { apply (stash_adds_forall (fun c p => tle c (pinit p) = true /\ tle (pinit p) (ptime p) = true) (fun c => beyond (hw_front w ++ map fst (h_stash (hw_op w))) c)).
    - eapply Forall_impl; [|exact Hmsgs]. cbv beta. intros m [H1 H2]. split; [apply beyond_app; auto|exact H2].
    - rewrite Forall_forall in *. intros e He. split; [apply beyond_app; right; apply beyond_in, in_map, He|apply I6; auto]. }
  assert (Hrel : Forall (released comparison F2) A).
  { eapply Forall_impl; [|exact I4]. cbv beta. intros p Hp f Hf. destruct (HF f (beyond_in _ _ Hf)) as (f0 & Hf0 & Hl). destruct (comparison f (pinit p)) eqn:E; auto.
    rewrite <- (Hp f0 Hf0). symmetry. eapply (cf_earlier _ _ HC); eauto. }
  (* what the loop over the stash gives *)
  assert (Loop : exists stash' more outs again A',
    match h_trace (hw_op w) with Some _ => hj_stash ops cops new comparison output_func (MU:=MU) (sd_spine (hw_in w)) F2 false ys all | None => Some (all, [], [], false) end = Some (stash', more, outs, again) /\
    samep (flat_map snd all) (A' ++ flat_map snd stash' ++ flat_map snd more) /\ Forall (released comparison F2) A' /\
    same (flat_map snd outs) (answers A' (h_input w)) /\
    Forall (fun o => beyond (hw_front w ++ map fst (h_stash (hw_op w))) (fst o) /\ Forall (fun u => tle (fst o) (uinit u) = true /\ tle (uinit u) (utime u) = true) (snd o)) outs /\
    Forall (fun e => beyond (hw_front w ++ map fst (h_stash (hw_op w))) (fst e) /\ entry_ok e) stash' /\ Forall (fun e => beyond (hw_front w ++ map fst (h_stash (hw_op w))) (fst e) /\ entry_ok e) more /\
    (again = false -> Forall (fun e => Forall (waits comparison F2 (fst e)) (snd e)) stash' /\ Forall (fun e => Forall (waits comparison F2 (fst e)) (snd e)) more) /\
    (Forall (eq false) ys -> again = false)).
  { assert (Hcap : forall c, In c (map fst all) -> beyond (hw_front w ++ map fst (h_stash (hw_op w))) c).
    { intros c Hc. apply in_map_iff in Hc as (e & <- & He). rewrite Forall_forall in Hall. apply (Hall e He). }
    assert (Hent : Forall entry_ok all) by (eapply Forall_impl; [|exact Hall]; cbv beta; tauto).
    destruct all as [|e0 all'] eqn:Eall.
    - exists [], [], [], false, []. split; [destruct (h_trace (hw_op w)); reflexivity|]. split; [intros x; reflexivity|]. split; [constructor|]. split; [intros x; reflexivity|]. split; [constructor|]. split; [constructor|]. split; [constructor|]. split; [split; constructor|]. auto.
    - destruct (protects_beyond _ _ (fst e0) I7 (Hcap _ (or_introl eq_refl))) as (HL & HP & Eh & _ & Hne). rewrite Eh in *.
      destruct I2 as [A1 A2]. assert (HL' : sd_logical (hw_in w) <> []).
      { intros EL. rewrite EL in A1. destruct HL as [|l HL]; [congruence|]. apply (beyond_nil (T:=T) l). apply A1, beyond_in. left; auto. }
      destruct I1 as (n & HS). destruct (batches_through_all_alike ops contents laws _ _ _ _ _ _ HS HL') as (bs & Eb & Ha & Hok).
      rewrite <- Eall in *. clear Eall.
      destruct (stash_ok ops contents laws cops new HR comparison output_func (MU:=MU) _ bs (conj Eb Hok) F2 all false ys Hent) as (stash' & more & outs & again & A' & E & L1 & L2 & L3 & L4 & L5 & L6 & L7 & _ & L9).
      exists stash', more, outs, again, A'. split; [exact E|]. split; [exact L1|]. split; [eapply Forall_impl; [|exact L2]; cbv beta; tauto|]. split.
      { eapply same_weights_trans; [exact L3|]. clear - L2 Ha HC Hcap I7 A1 MU. induction A' as [|p A' IH]; [intros x; reflexivity|]. inversion L2 as [|? ? (_ & c & Hc & Hl1 & Hl2) L2']; subst. rewrite !answers_cons. apply same_weights_app; [|auto].
        destruct (protects_beyond _ _ c I7 (Hcap c Hc)) as (HL1 & HP1 & Eh1 & Hs & _). inversion Eh1; subst HL1 HP1.
        apply (alike_answer comparison output_func (sd_logical (hw_in w)) p _ _ Ha).
        - intros t t' Ht. apply (cf_respects _ _ HC c); auto. intros u Hu. apply Ht, A1, Hs, Hu.
        - apply A1, Hs. eapply beyond_mono; [|apply (cf_covers _ _ HC)]. eapply tle_trans; eauto. }
      split; [eapply Forall_impl; [|exact L4]; cbv beta; intros o [H1 H2]; auto|].
      split; [eapply Forall_impl; [|exact L5]; cbv beta; intros o [H1 H2]; auto|].
      split. { eapply Forall_impl; [|exact L6]; cbv beta. intros e [(c & Hc & Hl) H2]. split; [|auto]. eapply beyond_mono; [exact Hl|auto]. }
      split; [exact L7|]. intros Hn. apply L9; auto. }
  destruct Loop as (stash' & more & outs & again & A' & E & L1 & L2 & L3 & L4 & L5 & L6 & L7 & L8).
  unfold activate. fold all. rewrite E.
  set (st1 := filter (fun e => match snd e with [] => false | _ => true end) stash'). set (st2 := stash_adds more st1).
  assert (St2 : Forall (fun e => beyond (hw_front w ++ map fst (h_stash (hw_op w))) (fst e) /\ entry_ok e) st2).
  { apply (stash_adds_forall (fun c p => tle c (pinit p) = true /\ tle (pinit p) (ptime p) = true) (fun c => beyond (hw_front w ++ map fst (h_stash (hw_op w))) c)); [exact L6|].
    apply Forall_forall. intros e He. apply filter_In in He as [He _]. rewrite Forall_forall in L5. apply (L5 e He). }
  assert (Ow : samep (flat_map snd all) (A' ++ flat_map snd st2)).
  { eapply same_weights_trans; [exact L1|]. apply same_weights_app; [apply same_weights_refl|]. apply weight_perm. apply Permutation_sym. eapply perm_trans; [apply stash_adds_perm|].
    unfold st1. rewrite filter_nonempty_flat. apply Permutation_app_comm. }
  eexists _, outs, again, A'. split; [reflexivity|]. cbn [h_stash h_trace].
  split; [|split; [eapply Forall_impl; [|exact L4]; cbv beta; tauto|split; [eapply Forall_impl; [|exact St2]; cbv beta; tauto|split; [exact L8|]]]].
  2:{ intros Hy. destruct (L7 Hy) as [W1 W2].
      assert (G : Forall (fun e => True /\ Forall (waits comparison F2 (fst e)) (snd e)) st2).
      { apply (stash_adds_forall (waits comparison F2) (fun _ => True)); [eapply Forall_impl; [|exact W2]; cbv beta; auto|].
        apply Forall_forall. intros e He. apply filter_In in He as [He _]. rewrite Forall_forall in W1. split; [auto|apply (W1 e He)]. }
      eapply Forall_impl; [|exact G]. cbv beta. tauto. }
  subst s'. constructor; cbn [hw_in hw_front hw_asked hw_op hw_out h_stash h_trace sd_spine sd_hist sd_upper sd_logical sd_physical sd_flight sd_front].
  - exact I1.
  - destruct (h_trace (hw_op w)) as [[L P]|]; [|exact I]. destruct I2 as [A1 A2]. destruct F' as [|f F'], st2 as [|e st2]; try exact I; (split; [intros t Ht; apply A1; apply antichain_join_beyond in Ht; tauto|auto]).
  - unfold h_owed. cbn [hw_op h_stash]. intros a. rewrite !weight_app, (I3 a), weight_app. pose proof (Ow a) as O. rewrite weight_app in O.
    unfold h_owed. pose proof (weight_perm _ _ (stash_adds_perm msgs1 (h_stash (hw_op w))) a) as Pm. fold all in Pm. rewrite weight_app in Pm. rewrite Pm in O.
    rewrite !dplus_assoc. f_equal. rewrite <- O. apply dplus_comm.
  - apply Forall_app; auto.
  - unfold h_produced, HalfJoinSpec.h_input in *. cbn [hw_out hw_in sd_hist]. rewrite flat_map_app, answers_app_l. apply same_weights_app; auto.
  - eapply Forall_impl; [|exact St2]; cbv beta; tauto.
  - destruct (h_trace (hw_op w)) as [[L P]|].
    + assert (G : forall e t, In e (F' ++ map fst st2) -> beyond (frontier_func e) t -> beyond (antichain_join L (ac_from (flat_map frontier_func (F' ++ map fst st2)))) t).
      { intros e t He Ht. apply antichain_join_beyond. split.
        - assert (Hb : beyond (hw_front w ++ map fst (h_stash (hw_op w))) e).
          { apply in_app_iff in He as [He|He]; [apply beyond_app; left; apply Hfront, beyond_in, He|]. apply in_map_iff in He as (x & <- & Hx). rewrite Forall_forall in St2. apply (St2 x Hx). }
          destruct (protects_beyond _ _ e I7 Hb) as (HL & HP & Eh & Hs & _). inversion Eh; subst. auto.
        - apply ac_from_beyond. destruct Ht as (f & Hf & Hl). exists f. split; [|exact Hl]. apply in_flat_map. eauto. }
      destruct F' as [|f F'], st2 as [|e0 st2]; cbn [protects]; auto.
    + cbn [protects] in *. apply app_eq_nil in I7 as [E1 E2]. rewrite E1, E2 in *. cbn [app] in *.
      assert (st2 = []) as -> by (destruct St2 as [|x l [Hx _] _]; [auto|destruct (beyond_nil _ Hx)]).
      assert (F' = []) as ->. { destruct F' as [|f F']; [auto|]. destruct (beyond_nil _ (Hfront f (beyond_in (f :: F') f (or_introl eq_refl)))). }
      reflexivity.
  - apply Forall_app. split; [exact I8|]. eapply Forall_impl; [|exact L4]; cbv beta; tauto.
Qed.

Lemma hstep_inv w w' A : hinv w A -> hstep w w' -> exists A', hinv w' A'.
Proof.
  intros HI HS. destruct HS.
  - exists A. destruct HI as [I1 I2 I3 I4 I5 I6 I7 I8]. cbn [hw_in hw_front hw_asked hw_op hw_out] in *. pose proof (side_env_inv _ _ _ _ _ _ H I1) as HI'.
    assert (G : allowed (h_trace h) (sd_logical s') (sd_physical s') /\ sd_front s' = sd_front s /\ exists bs, sd_hist s' = sd_hist s ++ bs /\ Forall (times_beyond contents (sd_front s)) bs).
    { destruct H; cbn [sd_logical sd_physical sd_front sd_hist] in *.
      - split; [auto|]. split; [auto|]. exists [b]. split; [auto|]. constructor; [auto|constructor].
      - split; [auto|]. split; [auto|]. exists [b]. split; [auto|]. constructor; [|constructor]. unfold times_beyond. rewrite H2. constructor.
      - split; [auto|]. split; [auto|]. exists []. rewrite app_nil_r. auto.
      - split; [auto|]. split; [auto|]. exists []. rewrite app_nil_r. auto.
      - split; [auto|]. split; [auto|]. exists []. rewrite app_nil_r. auto. }
    destruct G as (G1 & G2 & bs & G3 & G4). constructor; cbn [hw_in hw_front hw_asked hw_op hw_out]; auto.
    + rewrite G2. auto.
    + eapply same_weights_trans; [exact I5|]. unfold HalfJoinSpec.h_input. cbn [hw_in]. rewrite G3, flat_map_app. apply same_weights_sym. eapply same_weights_trans; [apply answers_app_r|].
      rewrite (released_answers comparison output_func A (sd_front s) (flat_map contents bs)), app_nil_r; [apply same_weights_refl|apply (cf_earlier _ _ HC)|exact I4|].
      apply Forall_forall. intros u Hu. apply in_flat_map in Hu as (b & Hb & Hu). rewrite Forall_forall in G4. specialize (G4 b Hb). unfold times_beyond in G4. rewrite Forall_forall in G4. auto.
  - exists A. destruct HI as [I1 I2 I3 I4 I5 I6 I7 I8]. cbn [hw_in hw_front hw_asked hw_op hw_out h_stash h_trace] in *. constructor; cbn [hw_in hw_front hw_asked hw_op hw_out h_stash h_trace]; auto.
    + eapply same_weights_trans; [exact I3|]. apply same_weights_app; [apply same_weights_refl|]. unfold h_owed. cbn [hw_op h_stash]. apply weight_perm. rewrite !flat_map_concat_map.
      clear - H. induction H; simpl; auto; [apply Permutation_app_head; auto|rewrite !app_assoc; apply Permutation_app_tail, Permutation_app_comm|eapply perm_trans; eauto].
    + eapply Permutation_Forall; eauto.
    + unfold protects in *. destruct tr as [[HL HP]|].
      * intros e t He. apply I7. apply in_app_iff in He. apply in_app_iff. destruct He as [He|He]; auto. right. eapply Permutation_in; [|exact He]. apply Permutation_map, Permutation_sym, H.
      * apply app_eq_nil in I7 as [-> I7]. apply map_eq_nil in I7. subst. apply Permutation_nil in H. subst. auto.
  - destruct (activate_ok _ _ _ _ _ _ _ ys HI H H0 H1) as (h1 & outs1 & again1 & A' & E & HI' & _). cbn [hw_in hw_front hw_asked hw_op hw_out] in *. rewrite E in H2. inversion H2; subst. eauto.
Qed.
Lemma hreaches_inv handle w : hreaches handle w -> exists A, hinv w A.
Proof.
  induction 1 as [w H|w w' _ (A & IH) H]; [exists []; eapply hstarts_inv; eauto|eapply hstep_inv; eauto].
Qed.
End World.
