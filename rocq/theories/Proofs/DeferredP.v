(** The deferred merge join hands out, container by container, the join of the two tries. *)
From Verif Require Export Proofs.OrdNeuP Proofs.ThinkP Proofs.ShowsP Proofs.BuilderP.

(** ** Draining the builder *)
Section Drain.
Context {D T R : Type} {OD : Ord D} {TT : Time T} {DR : Diff R}.
Variable p : nat.
Variable alloc : nat -> nat.
Hypothesis Hp : 1 <= p.
Local Notation U := (D * T * R)%type.
Local Notation good := (Forall (good_container (A:=D*T) (R:=R) p)).

Lemma push_all_ok (us : list U) : forall b, good (ccb_outbound b) ->
  exists b', push_all p alloc us b = Some b' /\ good (ccb_outbound b') /\ same_weights (A:=D*T) (ccb_held b') (ccb_held b ++ us).
Proof.
  induction us as [|u us IH]; intros b Hg.
  - exists b. split; [auto|]. split; [auto|]. rewrite app_nil_r. apply same_weights_refl.
  - destruct (ccb_step_ok p alloc b (BPush u) Hp Hg) as (b1 & o & E & G1 & _ & W & _). simpl in E.
    cbn [push_all]. destruct (ccb_push p alloc u b) as [b1'|] eqn:Ep; [|discriminate]. inversion E; subst b1' o. clear E.
    destruct (IH b1 G1) as (b' & E & G' & W'). exists b'. split; [auto|]. split; [auto|].
    intros a. rewrite W', weight_app. specialize (W a). cbn [out_list concat app bpushed] in W. rewrite W, !weight_app.
    change (u :: us) with ([u] ++ us). rewrite weight_app, dplus_assoc. auto.
Qed.

Lemma extract_loop_ok : forall fuel (b : ccb) (ready : list (list U)), length (ccb_outbound b) <= fuel -> good (ccb_outbound b) -> good ready ->
  exists b' ready', extract_loop p alloc fuel b ready = Some (b', ready') /\ good ready' /\ ccb_outbound b' = [] /\
    concat ready' ++ ccb_held b' = concat ready ++ ccb_held b.
Proof.
  induction fuel as [|fuel IH]; intros b ready Hl Hg Hr.
  - assert (Hn : ccb_outbound b = []) by (destruct (ccb_outbound b); simpl in Hl; [auto|lia]).
    cbn [extract_loop]. unfold ccb_extract. rewrite Hn. eauto 8.
  - cbn [extract_loop]. unfold ccb_extract. destruct (ccb_outbound b) as [|c ob] eqn:Eo; [eauto 8|].
    inversion Hg; subst. cbn [ccb_step].
    edestruct (IH (Build_ccb (ccb_current b) (ccb_cap b)
       (match ccb_empty b ++ [c] with [] => [] | _ => removelast (ccb_empty b ++ [c]) ++ [[]] end) ob) (ready ++ [c])) as (b' & ready' & E & R' & O' & W); simpl in *; auto; [lia|apply Forall_app; auto|].
    exists b', ready'. split; [exact E|]. split; [auto|]. split; [auto|].
    rewrite W. unfold ccb_held. simpl. rewrite Eo, concat_snoc. simpl. rewrite <- !app_assoc. auto.
Qed.
Lemma extract_all_ok (b : ccb) (ready : list (list U)) : good (ccb_outbound b) -> good ready ->
  exists b' ready', extract_all p alloc b ready = Some (b', ready') /\ good ready' /\ ccb_outbound b' = [] /\
    concat ready' ++ ccb_held b' = concat ready ++ ccb_held b.
Proof. intros. apply extract_loop_ok; auto. Qed.

Lemma concat_ne_length {X} (ls : list (list X)) : Forall (fun c => c <> []) ls -> length ls <= length (concat ls).
Proof. induction 1 as [|c ls Hc _ IH]; simpl; auto. rewrite app_length. destruct c; [congruence|]. simpl. lia. Qed.

Lemma finish_one (b : ccb) : good (ccb_outbound b) ->
  exists b' o, ccb_finish p b = Some (b', o) /\ ccb_current b' = [] /\ good (ccb_outbound b') /\ good (out_list o) /\
    same_weights (A:=D*T) (concat (out_list o) ++ concat (ccb_outbound b')) (ccb_held b) /\
    (o = None -> ccb_outbound b' = []) /\
    (o <> None -> length (ccb_outbound b') < length (ccb_current b) + length (ccb_outbound b)).
Proof.
  intros Hg. destruct (ccb_step_ok p alloc b BFinish Hp Hg) as (b' & o & E & G1 & G2 & W & N). cbn [ccb_step] in E.
  exists b', o. split; [auto|]. assert (Hc : ccb_current b' = [] /\ (o <> None -> length (ccb_outbound b') < length (ccb_current b) + length (ccb_outbound b)) /\ (o = None -> ccb_outbound b' = [])).
  { unfold ccb_finish in E. destruct (ccb_current b) as [|x cur] eqn:Ec.
    - inversion E as [E']. unfold ccb_extract in E'. destruct (ccb_outbound b) as [|c ob] eqn:Eo; inversion E'; subst; simpl; auto.
      + split; [auto|]. split; [congruence|auto].
      + split; [auto|]. split; [lia|discriminate].
    - unfold ccb_flush_through in E. rewrite Ec in E. set (cs := consolidate (x :: cur)) in *.
      rewrite Nat.div_1_r, Nat.mul_1_r in E. rewrite firstn_all, skipn_all in E.
      destruct (ccb_drain_ok p Hp (length cs) cs (ccb_empty b) (ccb_outbound b)) as (e' & new & Ed & Hcn & Hf); auto. rewrite Ed in E.
      assert (Hn : length new <= length (x :: cur)).
      { eapply Nat.le_trans; [apply concat_ne_length|]; [|rewrite Hcn; apply consolidate_length].
        eapply Forall_impl; [|apply Hf; apply consolidate_consolidated]. simpl; tauto. }
      inversion E as [E']. unfold ccb_extract in E'. simpl in E'. destruct (ccb_outbound b ++ new) as [|c ob] eqn:Eo; inversion E'; subst; simpl.
      + split; [auto|]. split; [congruence|auto].
      + split; [auto|]. split; [|discriminate]. intros _. assert (length (ccb_outbound b ++ new) = S (length ob)) by (rewrite Eo; auto). rewrite app_length in H. simpl in Hn. lia. }
  destruct Hc as (Hc & Hl & Hn). split; [auto|]. split; [auto|]. split; [auto|]. split; [|split; auto].
  intros a. specialize (W a). unfold ccb_held at 1 in W. rewrite Hc, app_nil_r in W. cbn [bpushed] in W. rewrite app_nil_r in W. auto.
Qed.
Lemma finish_loop_ok : forall fuel (b : ccb) (ready : list (list U)), length (ccb_current b) + length (ccb_outbound b) <= fuel -> good (ccb_outbound b) -> good ready ->
  exists b' ready', finish_loop p alloc fuel b ready = Some (b', ready') /\ good ready' /\ (ccb_held b' = [] /\ ccb_outbound b' = []) /\
    same_weights (A:=D*T) (concat ready') (concat ready ++ ccb_held b).
Proof.
  induction fuel as [|fuel IH]; intros b ready Hl Hg Hr; cbn [finish_loop];
    destruct (finish_one b Hg) as (b1 & o & E & Hc & G1 & G2 & W & N & L); rewrite E; destruct o as [c|].
  - specialize (L ltac:(discriminate)). lia.
  - exists b1, ready. split; [auto|]. split; [auto|]. split; [unfold ccb_held; rewrite Hc, (N eq_refl); auto|]. intros a. rewrite weight_app, <- W. cbn [out_list concat app].
    rewrite (N eq_refl). cbn [concat]. rewrite weight_nil, dplus_0_r. auto.
  - specialize (L ltac:(discriminate)). cbn [ccb_step].
    edestruct (IH (Build_ccb (ccb_current b1) (ccb_cap b1)
       (match ccb_empty b1 with [] => [] | _ => removelast (ccb_empty b1) ++ [[]] end) (ccb_outbound b1)) (ready ++ [c])) as (b' & ready' & E' & R' & O' & W'); simpl; auto.
    { rewrite Hc. simpl. lia. }
    { apply Forall_app; split; auto. }
    exists b', ready'. split; [exact E'|]. split; [auto|]. split; [auto|].
    intros a. rewrite W', concat_snoc, !weight_app, <- W. unfold ccb_held. simpl. rewrite Hc, !app_nil_r, weight_app, dplus_assoc. auto.
  - exists b1, ready. split; [auto|]. split; [auto|]. split; [unfold ccb_held; rewrite Hc, (N eq_refl); auto|]. intros a. rewrite weight_app, <- W. cbn [out_list concat app].
    rewrite (N eq_refl). cbn [concat]. rewrite weight_nil, dplus_0_r. auto.
Qed.
Lemma finish_all_ok (b : ccb) (ready : list (list U)) : good (ccb_outbound b) -> good ready ->
  exists b' ready', finish_all p alloc b ready = Some (b', ready') /\ good ready' /\ (ccb_held b' = [] /\ ccb_outbound b' = []) /\
    same_weights (A:=D*T) (concat ready') (concat ready ++ ccb_held b).
Proof. intros. apply finish_loop_ok; auto. Qed.
End Drain.

(** ** Joining the updates under different keys *)
Section Keys.
Context {K V1 V2 D T R1 R2 R3 : Type} {OK : Ord K} {OV1 : Ord V1} {OV2 : Ord V2} {OD : Ord D} {TT : Time T}
  {D1 : Diff R1} {D2 : Diff R2} {D3 : Diff R3} {MU : Multiply R1 R2 R3}.
Variable result : K -> V1 -> V2 -> list D.
Notation U1 := (K * V1 * T * R1)%type.
Notation U2 := (K * V2 * T * R2)%type.
Notation jn := (join_updates (MU:=MU) result).

(** the updates of a trie, times advanced *)
Definition flat_adv {V R} (adv : option T) (tr : trie K V T R) : list (K * V * T * R) :=
  flat_map (fun kv => map (fun u => (fst kv, fst (fst u), snd (fst u), snd u)) (flatv adv (snd kv))) tr.
Lemma flat_adv_cons {V R} adv k (vs : list (V * list (T * R))) tr :
  flat_adv adv ((k, vs) :: tr) = map (fun u => (k, fst (fst u), snd (fst u), snd u)) (flatv adv vs) ++ flat_adv adv tr.
Proof. reflexivity. Qed.
Lemma flat_adv_app {V R} adv (a b : trie K V T R) : flat_adv adv (a ++ b) = flat_adv adv a ++ flat_adv adv b.
Proof. unfold flat_adv. apply flat_map_app. Qed.
Lemma flat_adv_keys {V R} adv (tr : trie K V T R) u : In u (flat_adv adv tr) -> In (fst (fst (fst u))) (map fst tr).
Proof.
  unfold flat_adv. rewrite in_flat_map. intros ((k & vs) & Hi & Hu). apply in_map_iff in Hu as (x & <- & _). simpl.
  apply in_map_iff. exists (k, vs); auto.
Qed.
Lemma flat_adv_flat {V R} adv (tr : trie K V T R) :
  flat_adv adv tr = map (fun u => (fst (fst u), advance_opt adv (snd (fst u)), snd u)) (flat tr).
Proof.
  induction tr as [|[k vs] tr IH]; [reflexivity|]. rewrite flat_adv_cons, IH. unfold flat. cbn [flat_map fst snd]. rewrite map_app. f_equal.
  unfold flatv. clear. induction vs as [|[v ts] vs IH]; simpl; auto. rewrite !map_app, IH. f_equal. rewrite !map_map. auto.
Qed.

Lemma join_disjoint (a : list U1) (b : list U2) : (forall u1 u2, In u1 a -> In u2 b -> fst (fst (fst u1)) <> fst (fst (fst u2))) -> jn a b = [].
Proof.
  intros H. unfold join_updates. assert (E : forall u1, In u1 a -> flat_map (join_pair (MU:=MU) result u1) b = []).
  { intros [[[k1 v1] t1] r1] Hi. induction b as [|[[[k2 v2] t2] r2] b IH]; simpl; auto.
    destruct (eqb_spec k1 k2) as [->|]; [exfalso; eapply (H _ (k2, v2, t2, r2)); [exact Hi|left; auto|auto]|].
    apply IH. intros; apply H; simpl; auto. }
  clear H. induction a as [|u a IH]; simpl; auto. rewrite E by (left; auto). apply IH. intros; apply E; right; auto.
Qed.
(** a prefix of keys below all keys of the other side contributes nothing *)
Lemma join_skip_l m1 m2 (x y : trie K V1 T R1) (tr2 : trie K V2 T R2) : (forall k1 k2, In k1 (map fst x) -> In k2 (map fst tr2) -> lt k1 k2) ->
  same_weights (A:=D*T) (jn (flat_adv m1 (x ++ y)) (flat_adv m2 tr2)) (jn (flat_adv m1 y) (flat_adv m2 tr2)).
Proof.
  intros H. rewrite flat_adv_app, join_updates_app_l, join_disjoint; [apply same_weights_refl|].
  intros u1 u2 H1 H2 E. apply flat_adv_keys in H1, H2. specialize (H _ _ H1 H2). rewrite E in H. apply lt_irrefl in H. auto.
Qed.
Lemma join_skip_r m1 m2 (tr1 : trie K V1 T R1) (x y : trie K V2 T R2) : (forall k1 k2, In k1 (map fst tr1) -> In k2 (map fst x) -> lt k2 k1) ->
  same_weights (A:=D*T) (jn (flat_adv m1 tr1) (flat_adv m2 (x ++ y))) (jn (flat_adv m1 tr1) (flat_adv m2 y)).
Proof.
  intros H. rewrite flat_adv_app. eapply same_weights_trans; [apply join_updates_app_r|]. rewrite (join_disjoint _ (flat_adv m2 x)); [apply same_weights_refl|].
  intros u1 u2 H1 H2 E. apply flat_adv_keys in H1, H2. specialize (H _ _ H1 H2). rewrite E in H. apply lt_irrefl in H. auto.
Qed.
(** equal keys meet, and only each other *)
Lemma join_step m1 m2 k vs1 vs2 (tr1 : trie K V1 T R1) (tr2 : trie K V2 T R2) : (forall k', In k' (map fst tr1) \/ In k' (map fst tr2) -> lt k k') ->
  same_weights (A:=D*T) (jn (flat_adv m1 ((k, vs1) :: tr1)) (flat_adv m2 ((k, vs2) :: tr2)))
    (jn (map (fun u => (k, fst (fst u), snd (fst u), snd u)) (flatv m1 vs1)) (map (fun u => (k, fst (fst u), snd (fst u), snd u)) (flatv m2 vs2))
     ++ jn (flat_adv m1 tr1) (flat_adv m2 tr2)).
Proof.
  intros H. rewrite !flat_adv_cons, join_updates_app_l.
  assert (N : forall k', In k' (map fst tr1) \/ In k' (map fst tr2) -> k <> k') by (intros k' Hk ->; apply H in Hk; apply lt_irrefl in Hk; auto).
  apply same_weights_app; (eapply same_weights_trans; [apply join_updates_app_r|]).
  - rewrite (join_disjoint _ (flat_adv m2 tr2)); [rewrite app_nil_r; apply same_weights_refl|].
    intros u1 u2 H1 H2. apply flat_adv_keys in H2. apply in_map_iff in H1 as (x & <- & _). simpl. apply N; auto.
  - rewrite join_disjoint; [apply same_weights_refl|].
    intros u1 u2 H1 H2 E. apply flat_adv_keys in H1. apply in_map_iff in H2 as (x & <- & _). simpl in E. apply (N (fst (fst (fst u1)))); auto.
Qed.

Definition logicf (k : K) (v1 : V1) (v2 : V2) (t : T) (r1 : R1) (r2 : R2) : list (D * T * R3) := map (fun d => (d, t, dmul r1 r2)) (result k v1 v2).
Lemma logic_biadditive k : biadditive (logicf k).
Proof.
  unfold logicf. constructor; intros v1 v2 t; intros; rewrite ?weight_scaled, <- ?dsum_map_plus;
    try (apply dsum_map_zero; intros d _; rewrite ?dmul_0_l, ?dmul_0_r; destruct (eqb _ _); auto; fail);
    (apply dsum_map_ext; intros d _; rewrite ?dmul_plus_l, ?dmul_plus_r; destruct (eqb _ _); auto; rewrite dplus_0_l; auto).
Qed.
Lemma logic_cross k (us1 : list (V1 * T * R1)) (us2 : list (V2 * T * R2)) :
  flat_map (logic (MU:=MU) result k) (cross us1 us2) =
  jn (map (fun u => (k, fst (fst u), snd (fst u), snd u)) us1) (map (fun u => (k, fst (fst u), snd (fst u), snd u)) us2).
Proof.
  unfold cross, join_updates. induction us1 as [|[[v1 t1] r1] us1 IH]; simpl; auto. rewrite flat_map_app, IH. f_equal. clear IH.
  unfold emit1. cbn [fst snd]. induction us2 as [|[[v2 t2] r2] us2 IH]; simpl; auto. rewrite IH. f_equal. rewrite eqb_refl. auto.
Qed.
Lemma map_key_same {V R} {OV : Ord V} {DR : Diff R} (k : K) (a b : list (V * T * R)) : same_weights (A:=V*T) a b ->
  same_weights (A:=K*V*T) (map (fun u => (k, fst (fst u), snd (fst u), snd u)) a) (map (fun u => (k, fst (fst u), snd (fst u), snd u)) b).
Proof.
  intros H. assert (E : forall l : list (V*T*R), map (fun u => (k, fst (fst u), snd (fst u), snd u)) l =
    flat_map (fun x => [(k, fst (fst x), snd (fst x), snd x)]) l) by (induction l; simpl; f_equal; auto).
  rewrite !E. apply (flat_map_same_weights (A:=V*T) (B:=K*V*T) (fun a r => [(k, fst a, snd a, r)])); auto.
  - intros. rewrite weight_one. destruct (eqb _ _); auto.
  - intros. rewrite !weight_one. destruct (eqb _ _); auto. rewrite dplus_0_l; auto.
Qed.
End Keys.

Lemma skipn_plus {A} i n : forall l : list A, skipn (i + n) l = skipn n (skipn i l).
Proof. induction i as [|i IH]; simpl; auto. intros [|x l]; auto. rewrite skipn_nil; auto. Qed.
Lemma prefix_len_le {A} (f : A -> bool) l : prefix_len f l <= length l.
Proof. induction l as [|x l IH]; simpl; auto. destruct (f x); lia. Qed.
Lemma prefix_firstn {A} (f : A -> bool) l : Forall (fun x => f x = true) (firstn (prefix_len f l) l).
Proof. induction l as [|x l IH]; simpl; auto. destruct (f x) eqn:E; simpl; auto. Qed.
Lemma sorted_ge {K B} {OK : Ord K} (k : K) (b : B) l : strictly_sorted (map fst ((k, b) :: l)) -> forall k', In k' (map fst l) -> lt k k'.
Proof.
  simpl. revert k. induction l as [|[k1 b1] l IH]; simpl; intros k H k' Hi; [tauto|]. inversion H; subst.
  destruct Hi as [<-|Hi]; auto. eapply lt_trans; [eauto|]. eapply IH; eauto.
Qed.

Section Merge.
Context {St1 C1 St2 C2 K V1 V2 D T R1 R2 R3 : Type} {OK : Ord K} {OV1 : Ord V1} {OV2 : Ord V2} {OD : Ord D} {TT : Time T}
  {D1 : Diff R1} {D2 : Diff R2} {D3 : Diff R3} {MU : Multiply R1 R2 R3}.
Variable ops1 : CursorOps St1 C1 K V1 T R1.
Variable ops2 : CursorOps St2 C2 K V2 T R2.
Variable result : K -> V1 -> V2 -> list D.
Variable p : nat.
Variable alloc : nat -> nat.
Hypothesis Hp : 1 <= p.
Variable tr1 : trie K V1 T R1.
Variable tr2 : trie K V2 T R2.
Hypothesis S1 : strictly_sorted (map fst tr1).
Hypothesis S2 : strictly_sorted (map fst tr2).
Variable vfuel : nat.
Hypothesis F1 : Forall (fun e => length (snd e) <= vfuel) tr1.
Hypothesis F2 : Forall (fun e => length (snd e) <= vfuel) tr2.
Notation jn := (join_updates (MU:=MU) result).
Notation good := (Forall (good_container (A:=D*T) (R:=R3) p)).
Notation DI := (DeferredIter St1 C1 St2 C2 D T R3).

Definition left_over (m1 m2 : option T) (i1 i2 : nat) : list (D * T * R3) := jn (flat_adv m1 (skipn i1 tr1)) (flat_adv m2 (skipn i2 tr2)).
Record dinv (d : DI) (i1 i2 : nat) : Prop := {
  dv_1 : shows ops1 (di_storage1 d) tr1 (di_cursor1 d) {| kp := i1; vp := 0 |};
  dv_2 : shows ops2 (di_storage2 d) tr2 (di_cursor2 d) {| kp := i2; vp := 0 |};
  dv_l1 : i1 <= length tr1; dv_l2 : i2 <= length tr2;
  dv_out : good (ccb_outbound (di_builder d)); dv_ready : good (di_ready d)
}.
Notation todo i1 i2 := ((length tr1 - i1) + (length tr2 - i2)).
Definition same_config (d d' : DI) : Prop :=
  di_meet d' = di_meet d /\ di_advance1 d' = di_advance1 d /\ di_advance2 d' = di_advance2 d /\ di_done d' = di_done d.

Lemma di_loop_ok m1 m2 : forall fuel d i1 i2, dinv d i1 i2 -> todo i1 i2 <= fuel ->
  exists d' ex i1' i2', di_loop ops1 ops2 result p alloc fuel vfuel m1 m2 d = Some (d', ex) /\ dinv d' i1' i2' /\ same_config d d' /\
    same_weights (A:=D*T) (concat (di_ready d') ++ ccb_held (di_builder d') ++ left_over m1 m2 i1' i2')
                          (concat (di_ready d) ++ ccb_held (di_builder d) ++ left_over m1 m2 i1 i2) /\
    todo i1' i2' <= todo i1 i2 /\
    (ex = true -> left_over m1 m2 i1' i2' = []) /\
    (ex = false -> di_ready d = [] -> todo i1' i2' < todo i1 i2) /\
    (ex = false -> di_ready d' <> []).
Proof.
  induction fuel as [|fuel IH]; intros d i1 i2 I Hf.
  - assert (E1 : nth_error tr1 i1 = None) by (apply nth_error_None; destruct I; lia).
    assert (Hk1 : at_key tr1 {| kp := i1; vp := 0 |} = None) by (unfold at_key; simpl; rewrite E1; auto).
    cbn [di_loop]. destruct (di_ready d) as [|c rs] eqn:Er.
    + rewrite (shows_get_key _ _ _ _ _ (dv_1 _ _ _ I)), Hk1, (shows_get_key _ _ _ _ _ (dv_2 _ _ _ I)).
      exists d, true, i1, i2. split; [auto|]. split; [auto|]. split; [repeat split|]. rewrite Er. split; [apply same_weights_refl|].
      split; [lia|]. split; [|split; discriminate]. intros _. unfold left_over. rewrite (skipn_all2 tr1) by (destruct I; lia). auto.
    + exists d, false, i1, i2. split; [auto|]. split; [auto|]. split; [repeat split|]. rewrite Er. split; [apply same_weights_refl|].
      split; [lia|]. split; [discriminate|]. split; discriminate.
  - cbn [di_loop]. destruct (di_ready d) as [|c rs] eqn:Er.
    2:{ exists d, false, i1, i2. split; [auto|]. split; [auto|]. split; [repeat split|]. rewrite Er. split; [apply same_weights_refl|].
      split; [lia|]. split; [discriminate|]. split; discriminate. }
    rewrite (shows_get_key _ _ _ _ _ (dv_1 _ _ _ I)), (shows_get_key _ _ _ _ _ (dv_2 _ _ _ I)).
    unfold at_key. cbn [kp]. destruct (nth_error tr1 i1) as [[k1 vs1]|] eqn:E1.
    2:{ exists d, true, i1, i2. simpl. split; [auto|]. split; [auto|]. split; [repeat split|]. rewrite Er. split; [apply same_weights_refl|].
      split; [lia|]. split; [|split; discriminate]. intros _. unfold left_over. rewrite (skipn_all2 tr1) by (apply nth_error_None; auto). auto. }
    destruct (nth_error tr2 i2) as [[k2 vs2]|] eqn:E2.
    2:{ exists d, true, i1, i2. simpl. split; [auto|]. split; [auto|]. split; [repeat split|]. rewrite Er. split; [apply same_weights_refl|].
      split; [lia|]. split; [|split; discriminate]. intros _. unfold left_over. rewrite (skipn_all2 tr2) by (apply nth_error_None; auto). apply join_updates_nil_r. }
    cbn [option_map fst].
    pose proof (nth_error_skipn_cons _ _ _ E1) as K1. pose proof (nth_error_skipn_cons _ _ _ E2) as K2.
    pose proof (strictly_sorted_skipn _ i1 S1) as SS1. pose proof (strictly_sorted_skipn _ i2 S2) as SS2.
    assert (L1 : i1 < length tr1) by (apply nth_error_Some; congruence).
    assert (L2 : i2 < length tr2) by (apply nth_error_Some; congruence).
    destruct I as [I1 I2 _ _ Iout Iready]. destruct (cmp k1 k2) eqn:Ec.
    + apply cmp_eq in Ec. subst k2.
      assert (V1l : length vs1 <= vfuel) by (rewrite Forall_forall in F1; apply (F1 (k1, vs1)); eapply nth_error_In; eauto).
      assert (V2l : length vs2 <= vfuel) by (rewrite Forall_forall in F2; apply (F2 (k1, vs2)); eapply nth_error_In; eauto).
      destruct (el_load_ok _ _ _ m1 _ _ _ _ _ E1 I1 V1l) as (c1 & el1 & us1 & El1 & Sh1 & M1 & W1).
      destruct (el_load_ok _ _ _ m2 _ _ _ _ _ E2 I2 V2l) as (c2 & el2 & us2 & El2 & Sh2 & M2 & W2).
      rewrite El1, El2. destruct (think_ok (logicf (MU:=MU) result k1) (logic_biadditive result k1) _ _ _ _ M1 M2) as (calls & Et & Wt). rewrite Et.
      destruct (push_all_ok p alloc Hp (flat_map (logic (MU:=MU) result k1) calls) _ Iout) as (b & Eb & Gb & Wb). rewrite Eb.
      destruct (shows_nav _ _ _ _ _ StepKey Sh1 I I) as (c1' & Ec1 & Sh1'). simpl in Ec1. rewrite Ec1.
      destruct (shows_nav _ _ _ _ _ StepKey Sh2 I I) as (c2' & Ec2 & Sh2'). simpl in Ec2. rewrite Ec2.
      rewrite Er in Iready. destruct (extract_all_ok p alloc Hp b [] Gb Iready) as (b' & ready & Ee & Gr & Gn & We). rewrite Ee.
      cbn [move kp] in Sh1', Sh2'. rewrite Nat.min_l in Sh1', Sh2' by lia.
      edestruct (IH (Build_DeferredIter c1' (di_storage1 d) c2' (di_storage2 d) (di_meet d) (di_advance1 d) (di_advance2 d) b' ready (di_done d)) (S i1) (S i2))
        as (d' & ex & i1' & i2' & E & I' & C' & W & Lt' & X1 & X2 & X3).
      { constructor; simpl; auto; try lia. rewrite Gn; auto. }
      { lia. }
      exists d', ex, i1', i2'. split; [exact E|]. split; [auto|]. split; [exact C'|]. split; [|split; [lia|split; [auto|split; [lia|auto]]]].
      eapply same_weights_trans; [exact W|]. simpl. rewrite app_assoc, We. simpl.
      eapply same_weights_trans; [apply same_weights_app; [exact Wb|apply same_weights_refl]|]. rewrite <- app_assoc.
      apply same_weights_app; [apply same_weights_refl|]. unfold left_over at 2. rewrite K1, K2.
      rewrite K1 in SS1. rewrite K2 in SS2.
      eapply same_weights_trans; [|apply same_weights_sym; apply join_step].
      2:{ intros k' [Hk|Hk]; [exact (sorted_ge _ _ _ SS1 _ Hk)|exact (sorted_ge _ _ _ SS2 _ Hk)]. }
      apply same_weights_app; [|apply same_weights_refl].
      eapply same_weights_trans; [|eapply same_weights_trans; [apply (join_updates_congr_l (MU:=MU) result _ _ (map (fun u => (k1, fst (fst u), snd (fst u), snd u)) us2) (map_key_same k1 _ _ W1))|apply join_updates_congr_r; apply map_key_same; exact W2]].
      rewrite <- logic_cross. intros x. exact (Wt x).
    + destruct (shows_nav _ _ _ _ _ (SeekKey k2) I1 I I) as (c1 & Ec1 & Sh1). simpl in Ec1. rewrite Ec1.
      cbn [move kp] in Sh1. set (n := prefix_len _ _) in Sh1.
      assert (Hn : n <= length (skipn i1 tr1)) by (apply prefix_len_le). rewrite skipn_length in Hn.
      assert (Hn1 : 1 <= n). { unfold n. rewrite K1. cbn [prefix_len fst]. rewrite (proj2 (ltb_lt k1 k2)) by exact Ec. lia. }
      edestruct (IH (Build_DeferredIter c1 (di_storage1 d) (di_cursor2 d) (di_storage2 d) (di_meet d) (di_advance1 d) (di_advance2 d) (di_builder d) [] (di_done d)) (i1 + n) i2)
        as (d' & ex & i1' & i2' & E & I' & C' & W & Lt' & X1 & X2 & X3).
      { constructor; simpl; auto; try lia. }
      { lia. }
      exists d', ex, i1', i2'. split; [exact E|]. split; [auto|]. split; [exact C'|]. split; [|split; [lia|split; [auto|split; [lia|auto]]]].
      eapply same_weights_trans; [exact W|]. simpl. apply same_weights_app; [apply same_weights_refl|].
      unfold left_over. rewrite skipn_plus. rewrite <- (firstn_skipn n (skipn i1 tr1)) at 2.
      apply same_weights_sym. apply join_skip_l. intros a b Ha Hb. rewrite K2 in SS2, Hb.
      assert (A2 : lt a k2). { apply ltb_lt. apply in_map_iff in Ha as (e & <- & He). pose proof (prefix_firstn (fun e => ltb (fst e) k2) (skipn i1 tr1)) as G. rewrite Forall_forall in G. apply G in He. exact He. }
      simpl in Hb. destruct Hb as [<-|Hb]; auto. eapply lt_trans; [exact A2|]. exact (sorted_ge _ _ _ SS2 _ Hb).
    + apply cmp_Gt_lt in Ec. destruct (shows_nav _ _ _ _ _ (SeekKey k1) I2 I I) as (c2 & Ec2 & Sh2). simpl in Ec2. rewrite Ec2.
      cbn [move kp] in Sh2. set (n := prefix_len _ _) in Sh2.
      assert (Hn : n <= length (skipn i2 tr2)) by (apply prefix_len_le). rewrite skipn_length in Hn.
      assert (Hn1 : 1 <= n). { unfold n. rewrite K2. cbn [prefix_len fst]. rewrite (proj2 (ltb_lt k2 k1)) by exact Ec. lia. }
      edestruct (IH (Build_DeferredIter (di_cursor1 d) (di_storage1 d) c2 (di_storage2 d) (di_meet d) (di_advance1 d) (di_advance2 d) (di_builder d) [] (di_done d)) i1 (i2 + n))
        as (d' & ex & i1' & i2' & E & I' & C' & W & Lt' & X1 & X2 & X3).
      { constructor; simpl; auto; try lia. }
      { lia. }
      exists d', ex, i1', i2'. split; [exact E|]. split; [auto|]. split; [exact C'|]. split; [|split; [lia|split; [auto|split; [lia|auto]]]].
      eapply same_weights_trans; [exact W|]. simpl. apply same_weights_app; [apply same_weights_refl|].
      unfold left_over. rewrite skipn_plus. rewrite <- (firstn_skipn n (skipn i2 tr2)) at 2.
      apply same_weights_sym. apply join_skip_r. intros a b Ha Hb. rewrite K1 in SS1, Ha.
      assert (A2 : lt b k1). { apply ltb_lt. apply in_map_iff in Hb as (e & <- & He). pose proof (prefix_firstn (fun e => ltb (fst e) k1) (skipn i2 tr2)) as G. rewrite Forall_forall in G. apply G in He. exact He. }
      simpl in Ha. destruct Ha as [<-|Ha]; auto. eapply lt_trans; [exact A2|]. exact (sorted_ge _ _ _ SS1 _ Ha).
Qed.

(** What an iterator still owes. *)
Definition adv_of (a : bool) (d : DI) : option T := if a then Some (di_meet d) else None.
Definition owed (d : DI) (i1 i2 : nat) : list (D * T * R3) :=
  concat (di_ready d) ++ ccb_held (di_builder d) ++
    if di_done d then [] else left_over (adv_of (di_advance1 d) d) (adv_of (di_advance2 d) d) i1 i2.
Definition ninv (d : DI) (i1 i2 : nat) : Prop := dinv d i1 i2 /\ (di_done d = true -> ccb_held (di_builder d) = []).
Definition work (d : DI) (i1 i2 : nat) : nat := if di_done d then 0 else S (todo i1 i2).

(** calling next until it returns None *)
Inductive yields (fuel : nat) : DI -> list (list (D * T * R3)) -> Prop :=
| y_none : forall d d', di_next ops1 ops2 result p alloc fuel vfuel d = Some (d', None) -> yields fuel d []
| y_some : forall d d' c cs, di_next ops1 ops2 result p alloc fuel vfuel d = Some (d', Some c) -> yields fuel d' cs -> yields fuel d (c :: cs).

Lemma di_pop_ok d i1 i2 : ninv d i1 i2 -> di_ready d <> [] -> exists d' c, di_pop d = (d', Some c) /\ ninv d' i1 i2 /\ good_container p c /\
  owed d i1 i2 = c ++ owed d' i1 i2 /\ di_done d' = di_done d /\ length (di_ready d) = S (length (di_ready d')).
Proof.
  intros [[I1 I2 L1 L2 Io Ir] HN] Hr. unfold di_pop. destruct (di_ready d) as [|c rs] eqn:Er; [congruence|]. eexists _, c. split; [reflexivity|].
  inversion Ir; subst. split; [split; [constructor; auto|auto]|]. split; [auto|]. split; [|auto].
  unfold owed, adv_of. simpl. rewrite Er. simpl. rewrite <- app_assoc. auto.
Qed.

Lemma di_next_ok fuel d i1 i2 : ninv d i1 i2 -> todo i1 i2 <= fuel ->
  exists d' o i1' i2', di_next ops1 ops2 result p alloc fuel vfuel d = Some (d', o) /\ ninv d' i1' i2' /\ todo i1' i2' <= fuel /\
    Forall (good_container p) (out_list o) /\
    same_weights (A:=D*T) (owed d i1 i2) (concat (out_list o) ++ owed d' i1' i2') /\
    (o = None -> same_weights (A:=D*T) (owed d i1 i2) []) /\
    (work d' i1' i2' < work d i1 i2 \/ work d' i1' i2' = work d i1 i2 /\ (o <> None -> length (di_ready d') < length (di_ready d))).
Proof.
  intros HI Hf. unfold di_next. destruct (di_ready d) as [|c0 rs0] eqn:Er.
  2:{ destruct (di_pop_ok d i1 i2 HI) as (d' & c & E & HI' & Hg & W & Hd & Hl); [congruence|]. rewrite E. exists d', (Some c), i1, i2.
      split; [auto|]. split; [auto|]. split; [auto|]. split; [repeat constructor; apply Hg|]. split; [cbn [out_list concat]; rewrite app_nil_r, W; apply same_weights_refl|].
      split; [discriminate|]. right. unfold work. rewrite Hd. split; auto. intros _. rewrite Er in Hl. simpl in *. lia. }
  destruct (di_done d) eqn:Ed.
  { exists d, None, i1, i2. split; [auto|]. split; [auto|]. split; [auto|]. split; [constructor|]. split; [apply same_weights_refl|].
    split; [|right; split; auto; congruence]. intros _. destruct HI as [_ HN]. unfold owed. rewrite Er, Ed, HN; auto. apply same_weights_refl. }
  set (m1 := if di_advance1 d then _ else _). set (m2 := if di_advance2 d then _ else _).
  destruct HI as [HI _]. destruct (di_loop_ok m1 m2 fuel d i1 i2 HI Hf) as (d1 & ex & j1 & j2 & E & I1 & (Cm & Ca1 & Ca2 & Cd) & W & L & X1 & X2 & X3). rewrite E.
  assert (HO : owed d i1 i2 = concat (di_ready d) ++ ccb_held (di_builder d) ++ left_over m1 m2 i1 i2) by (unfold owed; rewrite Ed; auto).
  destruct ex.
  - destruct I1 as [A1 A2 A3 A4 A5 A6]. destruct (finish_all_ok p alloc Hp (di_builder d1) (di_ready d1) A5 A6) as (b & ready & Ef & Gr & (Hb & Hbo) & Wf). rewrite Ef.
    specialize (X1 eq_refl). rewrite X1, app_nil_r in W.
    match goal with |- context [Some (di_pop ?x)] => set (d2 := x) end.
    assert (I2 : ninv d2 j1 j2). { split; [constructor; simpl; auto|auto]. rewrite Hbo. constructor. }
    assert (O2 : same_weights (A:=D*T) (owed d i1 i2) (owed d2 j1 j2)).
    { rewrite HO. eapply same_weights_trans; [apply same_weights_sym; exact W|]. eapply same_weights_trans; [apply same_weights_sym; exact Wf|].
      unfold owed. simpl. rewrite Hb, !app_nil_r. apply same_weights_refl. }
    destruct ready as [|c rs].
    + exists d2, None, j1, j2. split; [auto|]. split; [auto|]. split; [lia|]. split; [constructor|]. split; [exact O2|].
      split; [|left; unfold work; rewrite Ed; simpl; lia]. intros _. eapply same_weights_trans; [exact O2|]. unfold owed. simpl. rewrite Hb. apply same_weights_refl.
    + destruct (di_pop_ok d2 j1 j2 I2) as (d' & c' & E' & HI' & Hg & W' & Hd & Hl); [discriminate|]. rewrite E'. exists d', (Some c'), j1, j2.
      split; [auto|]. split; [auto|]. split; [lia|]. split; [repeat constructor; apply Hg|].
      split; [cbn [out_list concat]; rewrite app_nil_r, <- W'; exact O2|]. split; [discriminate|]. left. unfold work. rewrite Hd, Ed. simpl. lia.
  - assert (I2 : ninv d1 j1 j2) by (split; [auto|rewrite Cd, Ed; discriminate]).
    assert (O2 : same_weights (A:=D*T) (owed d i1 i2) (owed d1 j1 j2)).
    { rewrite HO. eapply same_weights_trans; [apply same_weights_sym; exact W|]. unfold owed, adv_of. rewrite Cd, Ed, Ca1, Ca2, Cm. apply same_weights_refl. }
    specialize (X2 eq_refl Er).
    destruct (di_pop_ok d1 j1 j2 I2) as (d' & c' & E' & HI' & Hg & W' & Hd & Hl); [auto|]. rewrite E'. exists d', (Some c'), j1, j2.
      split; [auto|]. split; [auto|]. split; [lia|]. split; [repeat constructor; apply Hg|].
      split; [cbn [out_list concat]; rewrite app_nil_r, <- W'; exact O2|]. split; [discriminate|]. left. unfold work. rewrite Hd, Cd, Ed. lia.
Qed.

Lemma yields_ok fuel : forall n r d i1 i2, work d i1 i2 <= n -> length (di_ready d) <= r -> ninv d i1 i2 -> todo i1 i2 <= fuel ->
  exists cs, yields fuel d cs /\ same_weights (A:=D*T) (concat cs) (owed d i1 i2) /\ Forall (good_container p) cs.
Proof.
  induction n as [n IHn] using lt_wf_ind. induction r as [r IHr] using lt_wf_ind. intros d i1 i2 Hn Hr HI Hf.
  destruct (di_next_ok fuel d i1 i2 HI Hf) as (d' & o & j1 & j2 & E & HI' & Hf' & Hg & W & N & M). destruct o as [c|].
  - assert (G : exists cs, yields fuel d' cs /\ same_weights (A:=D*T) (concat cs) (owed d' j1 j2) /\ Forall (good_container p) cs).
    { destruct M as [M|[M1 M2]].
      - apply (IHn (work d' j1 j2) ltac:(lia) (length (di_ready d')) d' j1 j2); auto.
      - specialize (M2 ltac:(discriminate)). apply (IHr (length (di_ready d')) ltac:(lia) d' j1 j2); auto. lia. }
    destruct G as (cs & Y & Wc & Gc). exists (c :: cs). split; [eapply y_some; eauto|]. split; [|constructor; auto; inversion Hg; auto].
    eapply same_weights_trans; [|apply same_weights_sym; exact W]. simpl. rewrite app_nil_r. apply same_weights_app; auto. apply same_weights_refl.
  - exists []. split; [eapply y_none; eauto|]. split; auto. apply same_weights_sym. auto.
Qed.
End Merge.

(** ** A whole deferred join *)
Section Deferred.
Context {St1 C1 St2 C2 K V1 V2 D T R1 R2 R3 : Type} {OK : Ord K} {OV1 : Ord V1} {OV2 : Ord V2} {OD : Ord D} {TT : Time T}
  {D1 : Diff R1} {D2 : Diff R2} {D3 : Diff R3} {MU : Multiply R1 R2 R3}.
Lemma deferred_ok (ops1 : CursorOps St1 C1 K V1 T R1) (ops2 : CursorOps St2 C2 K V2 T R2) (result : K -> V1 -> V2 -> list D) p alloc
    (tr1 : trie K V1 T R1) (tr2 : trie K V2 T R2) c1 st1 c2 st2 fresh0 m fuel vfuel : 1 <= p ->
  strictly_sorted (map fst tr1) -> strictly_sorted (map fst tr2) ->
  Forall (fun e => length (snd e) <= vfuel) tr1 -> Forall (fun e => length (snd e) <= vfuel) tr2 -> length tr1 + length tr2 <= fuel ->
  presents_if no_seek_val ops1 st1 c1 tr1 -> presents_if no_seek_val ops2 st2 c2 tr2 ->
  exists cs, yields ops1 ops2 result p alloc vfuel fuel (di_prep c1 st1 c2 st2 fresh0 m) cs /\ Forall (good_container p) cs /\
    same_weights (A:=D*T) (concat cs) (join_updates (MU:=MU) result
      (map (fun u => (fst (fst u), advance_opt (if fresh0 then None else Some m) (snd (fst u)), snd u)) (flat tr1))
      (map (fun u => (fst (fst u), advance_opt (if fresh0 then Some m else None) (snd (fst u)), snd u)) (flat tr2))).
Proof.
  intros Hp S1 S2 F1 F2 Hf P1 P2.
  destruct (yields_ok ops1 ops2 result p alloc Hp tr1 tr2 S1 S2 vfuel F1 F2 fuel _ _ (di_prep c1 st1 c2 st2 fresh0 m) 0 0 (le_n _) (le_n _)) as (cs & Y & W & G).
  - split; [constructor; simpl; try constructor; try lia; apply shows_start; auto|discriminate].
  - lia.
  - exists cs. split; [auto|]. split; [auto|]. eapply same_weights_trans; [exact W|]. unfold owed, di_prep. simpl. unfold left_over. simpl.
    rewrite !flat_adv_flat. unfold adv_of. simpl. destruct fresh0; apply same_weights_refl.
Qed.
End Deferred.
