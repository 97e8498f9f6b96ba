(** * Proofs about cursors *)
From Verif Require Import Base.Arrays Base.Collections Spec.Presents.

Section Simulation.
Context {St C K V T R : Type} {OK : Ord K} {OV : Ord V}.
Variable ops : CursorOps St C K V T R.
Implicit Types (tr : trie K V T R) (p : pos) (c : C).

Lemma c_run_app st c l1 l2 : c_run ops st c (l1 ++ l2) = (c' <- c_run ops st c l1; c_run ops st c' l2).
Proof. revert c; induction l1 as [|a l1 IH]; intros c; simpl; auto. destruct (c_nav ops st c a); auto. Qed.

Lemma legal_run_app tr p l1 l2 p' :
  legal_run tr p (l1 ++ l2) p' <-> exists q, legal_run tr p l1 q /\ legal_run tr q l2 p'.
Proof.
  revert p; induction l1 as [|a l1 IH]; intros p; simpl.
  - split; [intros H; exists p; split; auto; constructor | intros (q & H1 & H2); inversion H1; subst; auto].
  - split.
    + intros H; inversion H as [|? ? ? ? Hl Hr]; subst. apply IH in Hr as (q & H1 & H2).
      exists q; split; auto. constructor; auto.
    + intros (q & H1 & H2). inversion H1 as [|? ? ? ? Hl Hr]; subst. constructor; auto. apply IH; eauto.
Qed.

(** A simulation relation proves [presents]. *)
Lemma presents_by_simulation st c0 tr (Rel : C -> pos -> Prop) :
  Rel c0 start ->
  (forall c p, Rel c p -> c_observe ops st c = Some (observation tr p)) ->
  (forall c p op, Rel c p -> legal tr p op -> exists c', c_nav ops st c op = Some c' /\ Rel c' (move tr p op)) ->
  presents ops st c0 tr.
Proof.
  intros H0 Hobs Hstep navs p Hl.
  assert (G : forall c q, Rel c q -> legal_run tr q navs p -> exists c', c_run ops st c navs = Some c' /\ Rel c' p).
  { clear H0 Hl. induction navs as [|op navs IH]; intros c q HR Hl; inversion Hl; subst; simpl.
    - eauto.
    - destruct (Hstep c q op) as (c' & E & HR'); auto. rewrite E. eapply IH; eauto. }
  destruct (G c0 start H0 Hl) as (c & E & HR). exists c; split; auto.
Qed.

(** ... and [presents] gives one: being reached by the same legal navigation. *)
Definition reached st c0 tr c p := exists navs, legal_run tr start navs p /\ c_run ops st c0 navs = Some c.

Lemma reached_start st c0 tr : reached st c0 tr c0 start.
Proof. exists []. split; constructor. Qed.

Lemma reached_observe st c0 tr c p : presents ops st c0 tr -> reached st c0 tr c p ->
  c_observe ops st c = Some (observation tr p).
Proof. intros HP (navs & Hl & Hr). destruct (HP navs p Hl) as (c' & E & O). congruence. Qed.

Lemma reached_nav st c0 tr c p op : presents ops st c0 tr -> reached st c0 tr c p -> legal tr p op ->
  exists c', c_nav ops st c op = Some c' /\ reached st c0 tr c' (move tr p op).
Proof.
  intros HP (navs & Hl & Hr) HL.
  assert (Hl' : legal_run tr start (navs ++ [op]) (move tr p op)).
  { apply legal_run_app. exists p; split; auto. constructor; auto. constructor. }
  destruct (HP _ _ Hl') as (c' & E & O). rewrite c_run_app, Hr in E. simpl in E.
  destruct (c_nav ops st c op) as [c1|] eqn:En; [|discriminate]. inversion E; subst c1.
  exists c'; split; auto. exists (navs ++ [op]); split; auto. rewrite c_run_app, Hr. simpl. rewrite En; auto.
Qed.

(** Consequences of an observation. *)
Lemma observe_none st c : c_observe ops st c = Some None -> c_get_key ops st c = Some None.
Proof.
  unfold c_observe. destruct (c_get_key ops st c) as [[k|]|]; try discriminate; auto.
  repeat match goal with |- context [match ?e with _ => _ end] => destruct e; try discriminate end.
Qed.

Lemma observe_some st c k vo : c_observe ops st c = Some (Some (k, vo)) ->
  c_get_key ops st c = Some (Some k) /\ c_key ops st c = Some k /\ c_get_val ops st c = Some (option_map fst vo) /\
  (forall v ts, vo = Some (v, ts) -> c_val ops st c = Some v /\ c_map_times ops st c = Some ts).
Proof.
  unfold c_observe. destruct (c_get_key ops st c) as [[k1|]|]; try discriminate.
  2:{ destruct (c_key_valid ops st c) as [[]|]; discriminate. }
  destruct (c_key_valid ops st c) as [kv|]; try discriminate.
  destruct (c_key ops st c) as [k2|]; try discriminate.
  destruct (c_get_val ops st c) as [vo'|]; try discriminate.
  destruct (c_val_valid ops st c) as [vv|]; try discriminate.
  destruct (eqb_spec k1 k2) as [->|]; simpl; try discriminate. destruct kv; try discriminate.
  destruct vo' as [v1|].
  - destruct (c_val ops st c) as [v2|]; try discriminate. destruct (c_map_times ops st c) as [ts'|]; try discriminate.
    destruct (eqb_spec v1 v2) as [->|]; simpl; try discriminate. destruct vv; try discriminate.
    intros H; inversion H; subst. repeat split; auto; inversion H0; auto.
  - destruct vv; try discriminate. intros H; inversion H; subst. repeat split; auto; discriminate.
Qed.

(** ** to_vec *)
Lemma nth_error_skipn_cons {A} (l : list A) i x : nth_error l i = Some x -> skipn i l = x :: skipn (S i) l.
Proof. apply (@skipn_get A). Qed.

Lemma observation_some tr p e : nth_error tr (kp p) = Some e ->
  observation tr p = Some (fst e, match nth_error (snd e) (vp p) with Some x => Some x | None => None end).
Proof.
  intros E. unfold observation, at_key, at_val, at_times, cur_vals. rewrite E. destruct e as [k vs]; simpl.
  destruct (nth_error vs (vp p)) as [[v l]|]; reflexivity.
Qed.
Lemma observation_none tr p : nth_error tr (kp p) = None -> observation tr p = None.
Proof. intros E. unfold observation, at_key. rewrite E; reflexivity. Qed.

Section ToVec.
Variables (st : St) (c0 : C) (tr : trie K V T R).
Hypothesis HP : presents ops st c0 tr.
Local Notation Rel := (reached st c0 tr).

Lemma to_vec_vals_ok fuel : forall c p k vs out, Rel c p -> nth_error tr (kp p) = Some (k, vs) ->
  length vs <= fuel + vp p ->
  exists c', to_vec_vals ops fuel st c k out = Some (c', out ++ map (fun x => ((k, fst x), snd x)) (skipn (vp p) vs)) /\
    exists j, Rel c' {| kp := kp p; vp := j |}.
Proof.
  induction fuel as [|fuel IH]; intros c p k vs out HR E Hf; cbn [to_vec_vals].
  - pose proof (reached_observe _ _ _ _ _ HP HR) as O. rewrite (observation_some _ _ _ E) in O. simpl in O.
    assert (En : nth_error vs (vp p) = None) by (apply nth_error_None; lia). rewrite En in O.
    apply observe_some in O as (_ & _ & O & _). simpl in O. rewrite O.
    rewrite skipn_all2 by lia. simpl. rewrite app_nil_r. exists c; split; auto. exists (vp p). destruct p; auto.
  - pose proof (reached_observe _ _ _ _ _ HP HR) as O. rewrite (observation_some _ _ _ E) in O. simpl in O.
    destruct (nth_error vs (vp p)) as [[v l]|] eqn:En.
    + apply observe_some in O as (_ & _ & O & O'). simpl in O. rewrite O.
      destruct (O' v l eq_refl) as [_ Ot]. rewrite Ot.
      destruct (reached_nav _ _ _ _ _ StepVal HP HR) as (c' & En' & HR').
      { simpl. unfold at_key. rewrite E; discriminate. }
      simpl in En'. rewrite En'. simpl in HR'. unfold cur_vals in HR'; rewrite E in HR'.
      assert (Hlt : vp p < length vs) by (apply nth_error_Some; congruence).
      change (match length vs with 0 => 0 | S m' => S (Nat.min (vp p) m') end) with (Nat.min (S (vp p)) (length vs)) in HR'.
      rewrite Nat.min_l in HR' by lia.
      destruct (IH c' _ k vs (out ++ [((k, v), l)]) HR') as (c2 & E2 & j & HR2); [exact E|simpl; lia|].
      simpl in E2. exists c2. split; [|eauto]. rewrite E2. f_equal. f_equal.
      rewrite (nth_error_skipn_cons _ _ _ En). cbn [map fst snd]. rewrite <- app_assoc. reflexivity.
    + apply observe_some in O as (_ & _ & O & _). simpl in O. rewrite O.
      apply nth_error_None in En. rewrite skipn_all2 by lia. simpl. rewrite app_nil_r.
      exists c; split; auto. exists (vp p). destruct p; auto.
Qed.

Definition vec_of (tr : trie K V T R) : list ((K * V) * list (T * R)) :=
  flat_map (fun e => map (fun x => ((fst e, fst x), snd x)) (snd e)) tr.

Lemma to_vec_keys_ok vfuel fuel : (forall e, In e tr -> length (snd e) <= vfuel) ->
  forall c p out, Rel c p -> length tr <= fuel + kp p -> kp p <= length tr ->
  to_vec_keys ops fuel vfuel st c out = Some (out ++ vec_of (skipn (kp p) tr)).
Proof.
  intros Hv. induction fuel as [|fuel IH]; intros c p out HR Hf Hk; cbn [to_vec_keys].
  - pose proof (reached_observe _ _ _ _ _ HP HR) as O.
    assert (En : nth_error tr (kp p) = None) by (apply nth_error_None; lia).
    rewrite observation_none in O by auto. rewrite (observe_none _ _ O).
    rewrite skipn_all2 by lia. simpl. rewrite app_nil_r; auto.
  - pose proof (reached_observe _ _ _ _ _ HP HR) as O.
    destruct (nth_error tr (kp p)) as [[k vs]|] eqn:En.
    + rewrite (observation_some _ _ _ En) in O. apply observe_some in O as (O & _). rewrite O. simpl fst.
      destruct (reached_nav _ _ _ _ _ RewindVals HP HR) as (c1 & E1 & HR1).
      { simpl. unfold at_key. rewrite En; discriminate. }
      simpl in E1, HR1. rewrite E1.
      destruct (to_vec_vals_ok vfuel c1 _ k vs out HR1) as (c2 & E2 & j & HR2); [exact En| |].
      { simpl. rewrite Nat.add_0_r. apply (Hv (k, vs)). eapply nth_error_In; eauto. }
      rewrite E2. simpl. destruct (reached_nav _ _ _ _ _ StepKey HP HR2) as (c3 & E3 & HR3); [exact I|].
      simpl in E3. rewrite E3.
      assert (Hlt : kp p < length tr) by (apply nth_error_Some; congruence).
      unfold move in HR3. cbn [kp] in HR3. rewrite Nat.min_l in HR3 by lia.
      rewrite (IH c3 _ _ HR3) by (simpl; lia). f_equal. simpl.
      rewrite (nth_error_skipn_cons _ _ _ En). simpl. rewrite <- app_assoc. reflexivity.
    + rewrite observation_none in O by auto. rewrite (observe_none _ _ O).
      apply nth_error_None in En. rewrite skipn_all2 by lia. simpl. rewrite app_nil_r; auto.
Qed.

Lemma to_vec_ok fuel vfuel : length tr <= fuel -> (forall e, In e tr -> length (snd e) <= vfuel) ->
  to_vec ops fuel vfuel st c0 = Some (vec_of tr).
Proof.
  intros Hf Hv. unfold to_vec.
  destruct (reached_nav _ _ _ _ _ RewindKeys HP (reached_start _ _ _)) as (c & E & HR); [exact I|].
  simpl in E, HR. rewrite E. rewrite (to_vec_keys_ok vfuel fuel Hv c start [] HR) by (simpl; lia). reflexivity.
Qed.

Lemma flat_vec_of (t : trie K V T R) : flat_vec (vec_of t) = flat t.
Proof.
  unfold flat_vec, vec_of, flat. induction t as [|[k vs] t IH]; simpl; auto.
  rewrite flat_map_app, IH. f_equal. clear. induction vs as [|[v l] vs IH]; simpl; auto.
  rewrite IH. reflexivity.
Qed.
End ToVec.
End Simulation.


(** Seeking finds the first element at or after the target. *)
Section Seek.
Context {St C K V T R : Type} {OK : Ord K} {OV : Ord V}.
Variable ops : CursorOps St C K V T R.

Lemma prefix_find {A B} {OA : Ord A} (l : list (A * B)) n k :
  option_map fst (nth_error l (n + prefix_len (fun e => ltb (fst e) k) (skipn n l))) =
  find (fun k' => leb k k') (skipn n (map fst l)).
Proof.
  revert l; induction n as [|n IH]; intros l.
  - simpl. induction l as [|[a b] l IH]; simpl; auto. destruct (ltb a k) eqn:E.
    + assert (E' : leb k a = false) by (apply leb_gt, ltb_lt; auto). rewrite E'. exact IH.
    + assert (E' : leb k a = true) by (apply leb_le, ltb_ge; auto). rewrite E'. reflexivity.
  - destruct l as [|x l]; simpl; auto.
Qed.

Lemma presents_seek (st : St) (c0 : C) (tr : trie K V T R) : presents ops st c0 tr ->
  forall navs p, legal_run tr start navs p ->
  (forall k, exists c, c_run ops st c0 (navs ++ [SeekKey k]) = Some c /\
     c_get_key ops st c = Some (find (fun k' => leb k k') (skipn (kp p) (map fst tr)))) /\
  (at_key tr p <> None -> forall v, exists c, c_run ops st c0 (navs ++ [SeekVal v]) = Some c /\
     c_get_key ops st c = Some (at_key tr p) /\
     c_get_val ops st c = Some (find (fun v' => leb v v') (skipn (vp p) (map fst (cur_vals tr p))))).
Proof.
  intros HP navs p Hl. split.
  - intros k. destruct (HP (navs ++ [SeekKey k]) (move tr p (SeekKey k))) as (c & E & O).
    { apply legal_run_app. exists p; split; auto. constructor; [exact I|constructor]. }
    exists c. split; auto. rewrite <- prefix_find.
    unfold observation, at_key in O. cbn [move kp] in O.
    destruct (nth_error tr _) as [[k' vs]|]; cbn [option_map fst] in *.
    + apply observe_some in O. tauto.
    + apply observe_none in O. auto.
  - intros Hk v. destruct (HP (navs ++ [SeekVal v]) (move tr p (SeekVal v))) as (c & E & O).
    { apply legal_run_app. exists p; split; auto. constructor; [exact Hk|constructor]. }
    exists c. split; auto. rewrite <- prefix_find.
    assert (EK : at_key tr (move tr p (SeekVal v)) = at_key tr p) by reflexivity.
    unfold observation in O. rewrite EK in O. destruct (at_key tr p) as [k|]; [|contradiction Hk; auto].
    apply observe_some in O as (O1 & _ & O2 & _). split; auto. rewrite O2. f_equal.
    unfold at_val, cur_vals. cbn [move kp vp].
    destruct (nth_error (match nth_error tr (kp p) with Some (_, vs) => vs | None => [] end) _) as [[? ?]|]; reflexivity.
Qed.
End Seek.
