(** Proofs about the consolidating builders. *)
From Verif Require Export Model.BuilderM Proofs.ConsolidationP.

Section BuilderP.
Context {A R : Type} {OA : Ord A} {DR : Diff R}.
Local Notation U := (A * R)%type.

(** What a client pushed. *)
Fixpoint bpushed (ops : list (builder_op (A:=A) (R:=R))) : list U :=
  match ops with [] => [] | BPush x :: ops => x :: bpushed ops | _ :: ops => bpushed ops end.
Fixpoint kpushed (ops : list (chunker_op (A:=A) (R:=R))) : list U :=
  match ops with [] => [] | KPush _ c :: ops => c ++ kpushed ops | _ :: ops => kpushed ops end.

Lemma consolidated_split (l1 l2 : list U) : consolidated (l1 ++ l2) -> consolidated l1 /\ consolidated l2.
Proof. intros H; apply consolidated_app in H; tauto. Qed.

Lemma ccb_drain_ok p : 1 <= p -> forall fuel drain empty outbound, length drain <= fuel ->
  exists empty' new, ccb_drain fuel p drain empty outbound = Some (empty', outbound ++ new) /\
    concat new = drain /\ (consolidated drain -> Forall (fun c => consolidated c /\ c <> [] /\ length c <= p) new).
Proof.
  intros Hp; induction fuel as [|fuel IH]; intros drain empty outbound Hl.
  - destruct drain; simpl in *; [|lia]. exists empty, []; rewrite app_nil_r; repeat split; auto.
  - destruct drain as [|x drain]; [exists empty, []; simpl; rewrite app_nil_r; repeat split; auto|].
    simpl ccb_drain.
    assert (length (skipn p (x :: drain)) <= fuel) as Hl'.
    { rewrite skipn_length. cbn [length] in *; lia. }
    destruct (IH (skipn p (x :: drain)) (removelast empty)
                 (outbound ++ [firstn p (x :: drain)]) Hl') as [e' [new [E [Hc Hf]]]].
    exists e', (firstn p (x :: drain) :: new). rewrite E. rewrite <- app_assoc. simpl concat. rewrite Hc.
    repeat split; auto. apply firstn_skipn.
    intros Hcons. rewrite <- (firstn_skipn p (x :: drain)) in Hcons. apply consolidated_split in Hcons as [H1 H2].
    constructor; auto. repeat split; try apply H1.
    + destruct p; simpl; [lia | congruence].
    + apply firstn_le_length.
Qed.

Lemma ccb_flush_ok p m b : 1 <= p -> 1 <= m ->
  exists b' new, ccb_flush_through p m b = Some b' /\
    ccb_outbound b' = ccb_outbound b ++ new /\ ccb_cap b' = ccb_cap b /\
    same_weights (concat new ++ ccb_current b') (ccb_current b) /\
    Forall (fun c => consolidated c /\ c <> [] /\ length c <= p) new /\
    length (ccb_current b') < m.
Proof.
  intros Hp Hm. unfold ccb_flush_through. set (cur := consolidate (ccb_current b)).
  set (k := length cur / m * m).
  assert (k <= length cur) as Hk.
  { unfold k. rewrite Nat.mul_comm. apply Nat.mul_div_le; lia. }
  destruct (ccb_drain_ok p Hp (length cur) (firstn k cur) (ccb_empty b) (ccb_outbound b))
    as [e' [new [E [Hc Hf]]]].
  { rewrite firstn_length; lia. }
  rewrite E. eexists _, new; split; [reflexivity|]; simpl. repeat split; auto.
  - intros a. rewrite Hc, firstn_skipn. apply consolidate_weight.
  - apply Hf. pose proof (consolidate_consolidated (ccb_current b)) as H. fold cur in H.
    rewrite <- (firstn_skipn k cur) in H. apply consolidated_split in H; tauto.
  - rewrite skipn_length. unfold k. pose proof (Nat.div_mod (length cur) m). rewrite Nat.mul_comm.
    pose proof (Nat.mod_upper_bound (length cur) m). lia.
Qed.

Definition good_container (p : nat) (c : list U) : Prop := consolidated c /\ c <> [] /\ length c <= p.

Definition ccb_held (b : ccb) : list U := concat (ccb_outbound b) ++ ccb_current b.

Lemma concat_snoc {X} (ls : list (list X)) l : concat (ls ++ [l]) = concat ls ++ l.
Proof. rewrite concat_app; simpl; rewrite app_nil_r; auto. Qed.

Ltac wt := rewrite ?weight_app, ?weight_nil, ?dplus_0_l, ?dplus_0_r, ?dplus_assoc.

Lemma ccb_extract_ok p b b' out : Forall (good_container p) (ccb_outbound b) -> ccb_extract b = (b', out) ->
  Forall (good_container p) (ccb_outbound b') /\ Forall (good_container p) (out_list out) /\
  ccb_held b = concat (out_list out) ++ ccb_held b' /\ ccb_current b' = ccb_current b /\ ccb_cap b' = ccb_cap b /\
  (out = None -> ccb_outbound b' = []).
Proof.
  unfold ccb_extract, ccb_held. destruct (ccb_outbound b) as [|c ob] eqn:E; intros Hf H; inversion H; subst; simpl.
  - rewrite E; repeat split; auto.
  - inversion Hf; subst. repeat split; auto. rewrite app_nil_r, <- app_assoc; auto. discriminate.
Qed.

Lemma ccb_step_ok p alloc b o : 1 <= p -> Forall (good_container p) (ccb_outbound b) ->
  exists b' out, ccb_step p alloc b o = Some (b', out) /\
    Forall (good_container p) (ccb_outbound b') /\ Forall (good_container p) (out_list out) /\
    same_weights (concat (out_list out) ++ ccb_held b') (ccb_held b ++ bpushed [o]) /\
    (o = BFinish -> out = None -> ccb_held b' = []).
Proof.
  intros Hp Hf. destruct o as [item| | |c]; simpl.
  - unfold ccb_push. set (b1 := Build_ccb _ _ _ _).
    assert (ccb_outbound b1 = ccb_outbound b) as Ho by reflexivity.
    assert (ccb_current b1 = ccb_current b ++ [item]) as Hc by reflexivity.
    destruct (_ =? _).
    + destruct (ccb_flush_ok p p b1) as [b' [new [E [H1 [Hcap [H2 [H3 H4]]]]]]]; auto. rewrite E.
      exists b', None; split; auto. rewrite H1, Ho. repeat split; simpl; auto; try discriminate.
      * apply Forall_app; auto.
      * intros a. unfold ccb_held. rewrite H1, Ho, concat_app. specialize (H2 a). rewrite Hc in H2.
        rewrite weight_app, weight_app in H2. rewrite !weight_app, !dplus_assoc, H2. auto.
    + exists b1, None; split; auto. rewrite Ho. repeat split; simpl; auto; try discriminate.
      intros a. unfold ccb_held. rewrite Ho, Hc, app_assoc; auto.
  - destruct (ccb_extract b) as [b' out] eqn:E. destruct (ccb_extract_ok p b b' out) as [H1 [H2 [H3 [H4 _]]]]; auto.
    exists b', out; repeat split; auto; try discriminate. intros a. rewrite app_nil_r, H3; auto.
  - unfold ccb_finish. destruct (ccb_current b) as [|x cur] eqn:Ec.
    + destruct (ccb_extract b) as [b' out] eqn:E.
      destruct (ccb_extract_ok p b b' out) as [H1 [H2 [H3 [H4 [_ H5]]]]]; auto.
      exists b', out; repeat split; auto; try discriminate.
      * intros a. rewrite app_nil_r, H3; auto.
      * intros _ Hn. unfold ccb_held. rewrite H5, H4 by auto. auto.
    + destruct (ccb_flush_ok p 1 b) as [b1 [new [E [H1 [Hcap [H2 [H3 H4]]]]]]]; auto. rewrite E.
      set (b2 := Build_ccb _ _ _ _). destruct (ccb_extract b2) as [b' out] eqn:E2.
      assert (ccb_outbound b2 = ccb_outbound b ++ new) as Ho2 by (exact H1).
      assert (ccb_current b2 = []) as Hc2.
      { simpl. destruct (ccb_current b1); auto. simpl in H4; lia. }
      destruct (ccb_extract_ok p b2 b' out) as [G1 [G2 [G3 [G4 [_ G5]]]]]; auto.
      { rewrite Ho2; apply Forall_app; auto. }
      exists b', out; repeat split; auto; try discriminate.
      * intros a. rewrite app_nil_r, <- G3. unfold ccb_held. rewrite Ho2, Hc2, app_nil_r, concat_app.
        assert (ccb_current b1 = []) as Hc1 by exact Hc2. rewrite Hc1, app_nil_r in H2.
        rewrite !weight_app, H2. auto.
      * intros _ Hn. unfold ccb_held. rewrite G5, G4, Hc2 by auto. auto.
  - exists {| ccb_current := ccb_current b; ccb_cap := ccb_cap b;
               ccb_empty := match ccb_empty b with [] => [] | _ => removelast (ccb_empty b) ++ [c] end;
               ccb_outbound := ccb_outbound b |}, None; repeat split; auto; try discriminate; [constructor|].
    intros a; simpl. rewrite app_nil_r; auto.
Qed.

Lemma bpushed_app o1 o2 : bpushed (o1 ++ o2) = bpushed o1 ++ bpushed o2.
Proof. induction o1 as [|[]]; simpl; auto. f_equal; auto. Qed.

Lemma ccb_run_ok p alloc : 1 <= p -> forall ops b, Forall (good_container p) (ccb_outbound b) ->
  exists b' outs, ccb_run p alloc b ops = Some (b', outs) /\
    Forall (good_container p) (ccb_outbound b') /\ Forall (good_container p) outs /\
    same_weights (concat outs ++ ccb_held b') (ccb_held b ++ bpushed ops).
Proof.
  intros Hp; induction ops as [|o ops IH]; intros b Hf; simpl ccb_run.
  - exists b, []; repeat split; auto. intros a; simpl; rewrite app_nil_r; auto.
  - destruct (ccb_step_ok p alloc b o Hp Hf) as [b1 [out [E1 [F1 [O1 [W1 _]]]]]]. rewrite E1.
    destruct (IH b1 F1) as [b2 [outs [E2 [F2 [O2 W2]]]]]. rewrite E2.
    exists b2, (out_list out ++ outs); repeat split; auto.
    + apply Forall_app; auto.
    + intros a. specialize (W1 a). specialize (W2 a).
      rewrite concat_app, <- app_assoc, weight_app, W2, weight_app, <- dplus_assoc, <- weight_app, W1.
      change (o :: ops) with ([o] ++ ops). rewrite bpushed_app, !weight_app, <- dplus_assoc. auto.
Qed.

Lemma ccb_run_app p alloc o1 o2 : forall b, ccb_run p alloc b (o1 ++ o2) =
  (' (b1, out1) <- ccb_run p alloc b o1; ' (b2, out2) <- ccb_run p alloc b1 o2; Some (b2, out1 ++ out2)).
Proof.
  induction o1 as [|o o1 IH]; intros b; simpl.
  - destruct (ccb_run p alloc b o2) as [[? ?]|]; auto.
  - destruct (ccb_step p alloc b o) as [[b1 out]|]; auto. rewrite IH.
    destruct (ccb_run p alloc b1 o1) as [[b2 outs]|]; auto.
    destruct (ccb_run p alloc b2 o2) as [[b3 outs2]|]; auto. rewrite app_assoc; auto.
Qed.

(** Main statement for the consolidating builder. *)
Lemma ccb_correct p alloc ops : 1 <= p ->
  exists b outs, ccb_run p alloc ccb_default ops = Some (b, outs) /\
    same_weights (concat outs ++ ccb_held b) (bpushed ops) /\
    Forall (good_container p) outs.
Proof.
  intros Hp. destruct (ccb_run_ok p alloc Hp ops ccb_default) as [b [outs [E [H1 [H2 H3]]]]]; [constructor|].
  exists b, outs; repeat split; auto.
Qed.

Lemma ccb_finish_done p alloc ops b outs b' : 1 <= p ->
  ccb_run p alloc ccb_default ops = Some (b, outs) -> ccb_finish p b = Some (b', None) ->
  same_weights (concat outs) (bpushed ops).
Proof.
  intros Hp Hr Hfin.
  destruct (ccb_run_ok p alloc Hp ops ccb_default) as [b1 [outs1 [E [H1 [H2 H3]]]]]; [constructor|].
  rewrite Hr in E; inversion E; subst b1 outs1.
  destruct (ccb_step_ok p alloc b BFinish Hp H1) as [b2 [out [E2 [_ [_ [W Hd]]]]]].
  simpl in E2. rewrite Hfin in E2; inversion E2; subst b2 out.
  intros a. rewrite <- H3. specialize (W a). rewrite Hd in W by auto. simpl in W. rewrite app_nil_r in W.
  rewrite weight_app, <- W, weight_nil, dplus_0_r. auto.
Qed.

(** The buffer never outgrows its capacity (so pushing never reallocates behind its back). *)
Lemma ccb_push_cap p alloc item b b' : 1 <= p -> (forall n, n <= alloc n) ->
  (ccb_cap b = 0 /\ ccb_current b = [] \/ 2 * p <= ccb_cap b /\ length (ccb_current b) < ccb_cap b) ->
  ccb_push p alloc item b = Some b' -> 2 * p <= ccb_cap b' /\ length (ccb_current b') < ccb_cap b'.
Proof.
  intros Hp Ha Hb. unfold ccb_push. set (b1 := Build_ccb _ _ _ _).
  assert (2 * p <= ccb_cap b1 /\ length (ccb_current b1) <= ccb_cap b1) as [Hc1 Hl1].
  { unfold b1; cbn [ccb_cap ccb_current]. rewrite app_length; simpl length.
    destruct Hb as [[Hc Hcur]|[Hc Hl]].
    - rewrite Hc, Hcur. simpl length. destruct (Nat.ltb_spec 0 (p * 2)); [|lia].
      pose proof (Ha (0 + (p * 2 - 0))). lia.
    - destruct (Nat.ltb_spec (ccb_cap b) (p * 2)); lia. }
  destruct (Nat.eqb_spec (length (ccb_current b1)) (ccb_cap b1)) as [E|E]; intros H.
  - destruct (ccb_flush_ok p p b1) as [b2 [new [E2 [_ [Hcap [_ [_ Hlt]]]]]]]; auto. rewrite H in E2; inversion E2; subst b2.
    lia.
  - inversion H; subst b'. lia.
Qed.

(** ** The chunker *)
Definition ck_held (k : chunker) : list U := concat (ck_ready k) ++ ck_pending k.
Definition good_chunk (c : list U) : Prop := consolidated c /\ c <> [].

Lemma ck_push_item_ok full k x : Forall good_chunk (ck_ready k) ->
  Forall good_chunk (ck_ready (ck_push_item full k x)) /\
  same_weights (ck_held (ck_push_item full k x)) (ck_held k ++ [x]).
Proof.
  intros Hf. unfold ck_push_item; cbn [ck_pending ck_ready ck_empty].
  destruct (full _); [|split; auto; intros a; unfold ck_held; simpl; rewrite app_assoc; auto].
  unfold ck_consolidate; cbn [ck_pending ck_ready ck_empty].
  set (c := consolidate (ck_pending k ++ [x])).
  destruct (Nat.ltb_spec (length (ck_pending k ++ [x]) / 2) (length c)) as [H|H]; cbn [ck_pending ck_ready ck_empty].
  - split.
    + apply Forall_app; split; auto. constructor; auto. split; [apply consolidate_consolidated|].
      destruct c; [simpl in H; lia | congruence].
    + intros a. unfold ck_held; simpl. rewrite app_nil_r, concat_snoc, <- app_assoc, !weight_app. f_equal.
      unfold c. rewrite consolidate_weight, weight_app. auto.
  - split; auto. intros a. unfold ck_held; simpl. rewrite <- app_assoc, weight_app. unfold c.
    rewrite consolidate_weight, <- weight_app; auto.
Qed.

Lemma ck_push_ok full c : forall k, Forall good_chunk (ck_ready k) ->
  Forall good_chunk (ck_ready (ck_push full c k)) /\ same_weights (ck_held (ck_push full c k)) (ck_held k ++ c).
Proof.
  induction c as [|x c IH]; intros k Hf; simpl.
  - split; auto. intros a; rewrite app_nil_r; auto.
  - destruct (ck_push_item_ok full k x Hf) as [H1 H2]. destruct (IH _ H1) as [H3 H4]. split; auto.
    intros a. unfold ck_push in H4. rewrite H4, weight_app, H2, <- weight_app, <- app_assoc. auto.
Qed.

Lemma ck_extract_ok k k' out : Forall good_chunk (ck_ready k) -> ck_extract k = (k', out) ->
  Forall good_chunk (ck_ready k') /\ Forall good_chunk (out_list out) /\
  ck_held k = concat (out_list out) ++ ck_held k' /\ ck_pending k' = ck_pending k /\
  (out = None -> ck_ready k' = []).
Proof.
  unfold ck_extract, ck_held. destruct (ck_ready k) as [|c r] eqn:E; intros Hf H; inversion H; subst; simpl.
  - rewrite E; repeat split; auto.
  - inversion Hf; subst. repeat split; auto. rewrite app_nil_r, <- app_assoc; auto. discriminate.
Qed.

Lemma chunker_step_ok k o k' out : Forall good_chunk (ck_ready k) -> chunker_step k o = (k', out) ->
  Forall good_chunk (ck_ready k') /\ Forall good_chunk (out_list out) /\
  same_weights (concat (out_list out) ++ ck_held k') (ck_held k ++ kpushed [o]) /\
  (o = KFinish -> out = None -> ck_held k' = []).
Proof.
  intros Hf. destruct o as [full c| | |c]; simpl.
  - intros H; inversion H; subst. destruct (ck_push_ok full c k Hf) as [H1 H2].
    repeat split; auto; try discriminate; [constructor|]. intros a; simpl. rewrite app_nil_r; auto.
  - intros H. destruct (ck_extract_ok k k' out Hf H) as [H1 [H2 [H3 [H4 _]]]].
    repeat split; auto; try discriminate. intros a. rewrite app_nil_r, H3; auto.
  - unfold ck_finish. destruct (ck_pending k) as [|x p] eqn:Ep.
    + intros H. destruct (ck_extract_ok k k' out Hf H) as [H1 [H2 [H3 [H4 H5]]]].
      repeat split; auto. intros a; rewrite app_nil_r, H3; auto.
      intros _ Hn. unfold ck_held. rewrite H5, H4, Ep by auto; auto.
    + unfold ck_consolidate; cbn [ck_pending ck_ready ck_empty]. rewrite Ep.
      destruct (consolidate (x :: p)) as [|y c] eqn:Ec; intros H.
      * destruct (fun HF => ck_extract_ok _ k' out HF H) as [H1 [H2 [H3 [H4 H5]]]]; [exact Hf|].
        repeat split; auto.
        -- intros a; rewrite app_nil_r, <- H3. unfold ck_held; simpl. rewrite Ep, !weight_app. f_equal.
           rewrite <- (consolidate_weight (x :: p)), Ec; auto.
        -- intros _ Hn. unfold ck_held. rewrite H5, H4 by auto; auto.
      * assert (good_chunk (y :: c)) as Hg.
        { rewrite <- Ec; split; [apply consolidate_consolidated | rewrite Ec; congruence]. }
        destruct (fun HF => ck_extract_ok _ k' out HF H) as [H1 [H2 [H3 [H4 H5]]]].
        { simpl. apply Forall_app; split; auto. }
        repeat split; auto.
        -- intros a; rewrite app_nil_r, <- H3. unfold ck_held; simpl ck_ready. simpl ck_pending.
           rewrite Ep, app_nil_r, concat_snoc, !weight_app. f_equal. rewrite <- Ec. apply consolidate_weight.
        -- intros _ Hn. unfold ck_held. rewrite H5, H4 by auto; auto.
  - intros H; inversion H; subst; simpl. repeat split; auto; try discriminate.
    intros a; simpl; rewrite app_nil_r; auto.
Qed.

Lemma kpushed_app o1 o2 : kpushed (o1 ++ o2) = kpushed o1 ++ kpushed o2.
Proof. induction o1 as [|[]]; simpl; auto. rewrite IHo1, app_assoc; auto. Qed.

Lemma chunker_run_ok ops : forall k k' outs, Forall good_chunk (ck_ready k) -> chunker_run k ops = (k', outs) ->
  Forall good_chunk (ck_ready k') /\ Forall good_chunk outs /\
  same_weights (concat outs ++ ck_held k') (ck_held k ++ kpushed ops).
Proof.
  induction ops as [|o ops IH]; intros k k' outs Hf H; simpl in H.
  - inversion H; subst. repeat split; auto. intros a; simpl; rewrite app_nil_r; auto.
  - destruct (chunker_step k o) as [k1 out] eqn:E1. destruct (chunker_run k1 ops) as [k2 outs2] eqn:E2.
    inversion H; subst. destruct (chunker_step_ok _ _ _ _ Hf E1) as [F1 [O1 [W1 _]]].
    destruct (IH _ _ _ F1 E2) as [F2 [O2 W2]]. repeat split; auto.
    + apply Forall_app; auto.
    + intros a. specialize (W1 a). specialize (W2 a).
      rewrite concat_app, <- app_assoc, weight_app, W2, weight_app, <- dplus_assoc, <- weight_app, W1.
      change (o :: ops) with ([o] ++ ops). rewrite kpushed_app, !weight_app, <- dplus_assoc. auto.
Qed.

Lemma chunker_finish_done ops k outs k' :
  chunker_run chunker_default ops = (k, outs) -> ck_finish k = (k', None) -> same_weights (concat outs) (kpushed ops).
Proof.
  intros Hr Hfin. destruct (chunker_run_ok ops chunker_default _ _ (Forall_nil _) Hr) as [F [_ W]].
  destruct (chunker_step_ok k KFinish k' None F Hfin) as [_ [_ [W2 Hd]]].
  intros a. rewrite <- W. specialize (W2 a). rewrite Hd in W2 by auto. simpl in W2. rewrite app_nil_r in W2.
  rewrite weight_app, <- W2, weight_nil, dplus_0_r. auto.
Qed.
End BuilderP.
