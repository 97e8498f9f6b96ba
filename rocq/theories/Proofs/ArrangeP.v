(** Proofs about arrange_core. *)
From Verif Require Export Spec.ArrangeSpec Proofs.AgentP Proofs.MergeBatcherP Proofs.BuilderP.
From Verif Require Import Base.Collections Proofs.DescriptionP Proofs.SpineP.

Section ArrangeP.
Context {B M D T R : Type} {OD : Ord D} {TT : Time T} {DR : Diff R}.
Local Notation U := (D * T * R)%type.
Local Notation chunker := (chunker (A:=D*T) (R:=R)).
Local Notation batcher := (batcher (T:=T) (Chunk:=list U)).
Variable ops : BatchOps B M T.
Variable contents : B -> list U.
Variable laws : BatchLaws ops contents.
Variable full : list U -> bool.
Variable m_merge : list (list U) -> list (list U) -> option (list (list U)).
Variable m_extract : list (list U) -> list T -> option (list T * list (list U) * list (list U)).
Variable m_len : list U -> nat.
Variable build : list (list U) -> Description T -> B.
Variable ml : MergerLaws m_merge m_extract.
Hypothesis Hbuild : builds ops contents laws (ml_good _ _ ml) build.
Notation w_inv := (w_inv ops contents laws).
Notation proper := (proper ops contents laws).
Notation lower_of := (lower_of ops). Notation upper_of := (upper_of ops). Notation since_of := (since_of ops).
Notation good := (ml_good _ _ ml).
Notation wt := (weight (A:=D*T)).

Lemma beyondb_spec (F : list T) t : beyondb F t = true <-> beyond F t. Proof. exact (ac_less_equal_spec F t). Qed.
Lemma beyondb_false (F : list T) t : beyondb F t = false <-> ~ beyond F t. Proof. exact (ac_less_equal_false F t). Qed.
Lemma beyondb_same (F G : list T) t : same_future F G -> beyondb F t = beyondb G t.
Proof. intros H. destruct (beyondb G t) eqn:E; [apply beyondb_spec, H, beyondb_spec, E|apply beyondb_false; rewrite (H t); apply beyondb_false, E]. Qed.

(** ** The batcher *)
Definition bgood (b : batcher) : Prop := chains_good good (mb_chains b).
Definition bflat (b : batcher) : list U := chains_flat (fun c => c) (mb_chains b).
Lemma flat_concat (c : list (list U)) : flat (fun c => c) c = concat c.
Proof. unfold flat. rewrite map_id. auto. Qed.

Lemma bpush_ok b c : bgood b -> good_chunk c ->
  exists b', mb_push m_merge m_len b c = Some b' /\ bgood b' /\ mb_lower b' = mb_lower b /\ same_weights (A:=D*T) (bflat b') (bflat b ++ c).
Proof.
  intros Hb [C1 C2]. apply (mb_push_ok m_merge m_len (fun c => c) good); auto.
  - intros x y Hx Hy. destruct (ml_merge _ _ ml x y Hx Hy) as (o & E & G & W). exists o. rewrite !flat_concat. auto.
  - apply ml_chunk; auto.
Qed.
Lemma bseal_ok b upper pending : bgood b -> same_weights (A:=D*T) (bflat b) pending -> mb_lower b <> [] ->
  exists b' chain d, a_seal m_merge m_extract m_len b upper = Some (b', chain, d) /\ bgood b' /\ good chain /\ mb_lower b' = upper /\
    d = {| d_lower := mb_lower b; d_upper := upper; d_since := [tmin] |} /\
    same_weights (A:=D*T) (bflat b') (filter (fun u => beyondb upper (time_of u)) pending) /\
    seals_correctly pending (mb_lower b) upper (concat chain) (mb_lower b, upper, [tmin]) (mb_frontier b').
Proof.
  intros Hb Hw Hne. unfold a_seal.
  destruct (mb_seal_ok m_merge m_extract m_len (fun c => c) good) with (b := b) (upper := upper) (pending := pending) as (b' & r & desc & E & G & L & W & S); auto.
  - apply ml_nil.
  - intros c Hc. rewrite flat_concat. apply (ml_consolidated _ _ ml); auto.
  - intros x y Hx Hy. destruct (ml_merge _ _ ml x y Hx Hy) as (o & Eo & Go & Wo). exists o. rewrite !flat_concat. auto.
  - intros m up Hm. destruct (ml_extract _ _ ml m up Hm) as (f & r & k & Ee & H). exists f, r, k. rewrite !flat_concat. auto.
  - rewrite flat_concat in S. destruct desc as [[lo up] si]. pose proof (sc_description _ _ _ _ _ _ S) as Hd. inversion Hd; subst lo up si. rewrite E.
    unfold desc_new. destruct (mb_lower b) as [|x l] eqn:El; [contradiction|]. eexists _, _, _. split; [reflexivity|].
    split; [exact G|split; [|split; [exact L|split; [reflexivity|split; [exact W|exact S]]]]].
    (* the chain handed out is one of the merger's *)
    clear - E ml Hb G. unfold mb_seal in E.
    destruct (seal_loop_ok m_merge m_len (fun c => c) good) with (fuel := length (mb_chains b)) (chains := mb_chains b) as (c' & E1 & G1 & L1 & _); auto.
    { intros x0 y Hx Hy. destruct (ml_merge _ _ ml x0 y Hx Hy) as (o & Eo & Go & Wo). exists o. rewrite !flat_concat. auto. }
    rewrite E1 in E. assert (Hm : exists m rest, match c' with [] => ([], []) | (_, c) :: rest => (c, rest) end = (m, rest) /\ good m).
    { destruct c' as [|[w c] c']; [exists [], []; split; [auto|apply ml_nil]|]. exists c, c'. split; auto. inversion G1; auto. }
    destruct Hm as (m & rest & Em & Gm). rewrite Em in E. destruct (ml_extract _ _ ml m upper Gm) as (f & r' & k & Ee & Gr & _). rewrite Ee in E. inversion E; subst. auto.
Qed.

(** ** The chunker *)
Lemma drain_ok (next : chunker -> chunker * option (list U)) (measure : chunker -> nat) :
  (forall k k' out, Forall good_chunk (ck_ready k) -> next k = (k', out) ->
     Forall good_chunk (ck_ready k') /\ Forall good_chunk (out_list out) /\ same_weights (A:=D*T) (concat (out_list out) ++ ck_held k') (ck_held k) /\
     (forall c, out = Some c -> measure (taken k') < measure k)) ->
  forall fuel k b, Forall good_chunk (ck_ready k) -> bgood b -> measure k <= fuel ->
  exists k' b', drain m_merge m_len next fuel k b = Some (k', b') /\ Forall good_chunk (ck_ready k') /\ bgood b' /\ mb_lower b' = mb_lower b /\
    same_weights (A:=D*T) (ck_held k' ++ bflat b') (ck_held k ++ bflat b) /\ exists k0, next k0 = (k', None) /\ Forall good_chunk (ck_ready k0).
Proof.
  intros Hstep. induction fuel as [|fuel IH]; intros k b Hk Hb Hm; cbn [drain]; destruct (next k) as [k1 [c|]] eqn:En.
  - destruct (Hstep _ _ _ Hk En) as (_ & _ & _ & Hlt). specialize (Hlt _ eq_refl). lia.
  - destruct (Hstep _ _ _ Hk En) as (H1 & _ & H3 & _). exists k1, b. split; [auto|split; [auto|split; [auto|split; [auto|split; [|exists k; auto]]]]].
    cbn [out_list concat app] in H3. apply same_weights_app; auto. apply same_weights_refl.
  - destruct (Hstep _ _ _ Hk En) as (H1 & H2 & H3 & Hlt). specialize (Hlt _ eq_refl). inversion H2 as [|? ? Hc _]; subst.
    destruct (bpush_ok b c Hb Hc) as (b1 & E1 & G1 & L1 & W1). rewrite E1.
    destruct (IH (taken k1) b1) as (k2 & b2 & E2 & F2 & G2 & L2 & W2 & H0); auto; [lia|]. exists k2, b2. rewrite E2.
    split; [auto|split; [auto|split; [auto|split; [congruence|split; [|exact H0]]]]].
    intros a. rewrite W2. change (ck_held (taken k1)) with (ck_held k1). rewrite !weight_app, (W1 a), weight_app, <- (H3 a). cbn [out_list concat]. rewrite app_nil_r, weight_app.
    rewrite (dplus_comm (wt c a) (wt (ck_held k1) a)), !dplus_assoc, (dplus_comm (wt c a)). reflexivity.
  - destruct (Hstep _ _ _ Hk En) as (H1 & _ & H3 & _). exists k1, b. split; [auto|split; [auto|split; [auto|split; [auto|split; [|exists k; auto]]]]].
    cbn [out_list concat app] in H3. apply same_weights_app; auto. apply same_weights_refl.
Qed.
Lemma drain_extract k b : Forall good_chunk (ck_ready k) -> bgood b ->
  exists k' b', drain m_merge m_len ck_extract (length (ck_ready k)) k b = Some (k', b') /\ Forall good_chunk (ck_ready k') /\ bgood b' /\ mb_lower b' = mb_lower b /\
    same_weights (A:=D*T) (ck_held k' ++ bflat b') (ck_held k ++ bflat b).
Proof.
  intros Hk Hb. destruct (drain_ok ck_extract (fun k => length (ck_ready k))) with (fuel := length (ck_ready k)) (k := k) (b := b) as (k' & b' & H); auto.
  - clear. intros k k' out Hk E. destruct (ck_extract_ok _ _ _ Hk E) as (H1 & H2 & H3 & _). split; [auto|split; [auto|split]].
    + rewrite H3. apply same_weights_refl.
    + intros c ->. unfold ck_extract in E. destruct (ck_ready k) eqn:Er; inversion E; subst. cbn. lia.
  - exists k', b'. tauto.
Qed.
Lemma drain_finish k b : Forall good_chunk (ck_ready k) -> bgood b ->
  exists k' b', drain m_merge m_len ck_finish (S (length (ck_ready k))) k b = Some (k', b') /\ Forall good_chunk (ck_ready k') /\ bgood b' /\ mb_lower b' = mb_lower b /\
    ck_held k' = [] /\ same_weights (A:=D*T) (bflat b') (ck_held k ++ bflat b).
Proof.
  intros Hk Hb. destruct (drain_ok ck_finish (fun k => length (ck_ready k) + match ck_pending k with [] => 0 | _ => 1 end)) with (fuel := S (length (ck_ready k))) (k := k) (b := b)
    as (k' & b' & E & F & G & L & W & k0 & E0 & F0); auto.
  - clear. intros k k' out Hk E. destruct (chunker_step_ok k KFinish k' out Hk E) as (H1 & H2 & H3 & H4). split; [auto|split; [auto|split]].
    + intros a. rewrite H3. cbn [kpushed]. rewrite app_nil_r. auto.
    + intros c ->. clear - E. unfold ck_finish, ck_extract, ck_consolidate in E. destruct (ck_pending k) as [|x p] eqn:Ep; cbn [ck_pending ck_ready ck_empty] in E.
      * destruct (ck_ready k) eqn:Er; inversion E; subst. cbn. rewrite Ep. cbn. lia.
      * destruct (consolidate (x :: p)) as [|y q] eqn:Ec; cbn [ck_ready] in E.
        -- destruct (ck_ready k) eqn:Er; inversion E; subst. cbn. lia.
        -- destruct (ck_ready k) as [|z r] eqn:Er; cbn [app] in E; inversion E; subst; cbn [taken ck_ready ck_pending length]; rewrite ?app_length; cbn; lia.
  - destruct (ck_pending k); lia.
  - exists k', b'. destruct (chunker_step_ok k0 KFinish k' None F0 E0) as (_ & _ & _ & Hd). specialize (Hd eq_refl eq_refl). rewrite Hd in W. cbn [app] in W. auto 10.
Qed.

(** ** Receiving *)
Definition st_held (st : astate D T R) : list U := ck_held (as_chunker st) ++ bflat (as_batcher st).
Record recv_inv (st : astate D T R) (prev : list T) (recv : list U) : Prop := {
  ri_prev : as_prev st = prev;
  ri_ready : Forall good_chunk (ck_ready (as_chunker st));
  ri_good : bgood (as_batcher st);
  ri_held : forall d t, wt (st_held st) (d, t) = if beyondb prev t then wt recv (d, t) else dzero;
  ri_caps : antichain (as_caps st);
  ri_beyond : Forall (beyond prev) (as_caps st);
  ri_cover : forall d t, wt (st_held st) (d, t) <> dzero -> beyond (as_caps st) t
}.
Lemma weight_in (l : list U) a : wt l a <> dzero -> In a (map fst l).
Proof. intros H. destruct (in_dec (fun x y => match eqb_spec x y with ReflectT _ e => left e | ReflectF _ n => right n end) a (map fst l)); auto. destruct H. apply weight_notin. auto. Qed.

Lemma receive_ok msgs prev : forall st recv, recv_inv st prev recv ->
  Forall (fun m => beyond prev (fst m) /\ Forall (fun u => tle (fst m) (time_of u) = true) (snd m)) msgs ->
  exists st', fold_left (a_receive full m_merge m_len) msgs (Some st) = Some st' /\ recv_inv st' prev (recv ++ flat_map snd msgs) /\
    mb_lower (as_batcher st') = mb_lower (as_batcher st).
Proof.
  induction msgs as [|[c us] msgs IH]; intros st recv I HM; cbn [fold_left flat_map].
  - exists st. rewrite app_nil_r. auto.
  - inversion HM as [|? ? [Hc Hus] HM']; subst. cbn [fst snd] in *. unfold a_receive at 2. cbn [fst snd].
    destruct (ck_push_ok full us (as_chunker st) (ri_ready _ _ _ I)) as [P1 P2].
    destruct (drain_extract _ (as_batcher st) P1 (ri_good _ _ _ I)) as (k' & b' & E & F' & G' & L' & W'). rewrite E.
    set (st1 := {| as_chunker := k'; as_batcher := b'; as_caps := ac_insert (as_caps st) c; as_prev := as_prev st |}).
    assert (Hb : forall u, In u us -> beyond prev (time_of u)).
    { intros u Hu. apply (beyond_mono _ c); auto. apply (proj1 (Forall_forall _ _) Hus u Hu). }
    assert (HW : forall a, wt (st_held st1) a = dplus (wt (st_held st) a) (wt us a)).
    { intros a. unfold st_held at 1. cbn [as_chunker as_batcher st1]. rewrite (W' a), weight_app, (P2 a), weight_app. unfold st_held. rewrite weight_app.
      rewrite !dplus_assoc, (dplus_comm (wt us a)). reflexivity. }
    assert (I1 : recv_inv st1 prev (recv ++ us)).
    { constructor; cbn [as_chunker as_batcher as_caps as_prev st1]; auto.
      - apply I.
      - intros d t. fold st1. rewrite HW, (ri_held _ _ _ I), weight_app. destruct (beyondb prev t) eqn:Eb; auto.
        rewrite dplus_0_l. apply weight_notin. intros Hin. apply in_map_iff in Hin as (u & Eu & Hu). apply beyondb_false in Eb. apply Eb. specialize (Hb u Hu). unfold time_of in Hb. rewrite Eu in Hb. exact Hb.
      - apply ac_insert_antichain, I.
      - apply Forall_forall. intros x Hx. apply ac_insert_incl in Hx as [Hx | ->]; auto. apply (proj1 (Forall_forall _ _) (ri_beyond _ _ _ I) x Hx).
      - intros d t. fold st1. rewrite HW. intros Hn. apply ac_insert_beyond.
        destruct (is_zero (wt us (d, t))) eqn:Ez.
        + apply is_zero_spec in Ez. rewrite Ez, dplus_0_r in Hn. left. eapply ri_cover; eauto.
        + right. assert (Hnz : wt us (d, t) <> dzero) by (intros H0; apply is_zero_spec in H0; congruence).
          apply weight_in in Hnz. apply in_map_iff in Hnz as (u & Eu & Hu). pose proof (proj1 (Forall_forall _ _) Hus u Hu) as Hle. unfold time_of in Hle. rewrite Eu in Hle. exact Hle. }
    destruct (IH st1 _ I1 HM') as (st' & E' & I' & L2). exists st'. rewrite <- app_assoc in I'. split; [exact E'|split; [exact I'|]]. rewrite L2. exact L'.
Qed.

(** ** Committing *)
(** What a batch of the log must be, given all updates received. *)
Definition entry_ok (recv : list U) (x : B * option T) : Prop :=
  consolidated (A:=D*T) (contents (fst x)) /\
  (forall d t, wt (contents (fst x)) (d, t) = if beyondb (lower_of (fst x)) t && negb (beyondb (upper_of (fst x)) t) then wt recv (d, t) else dzero) /\
  match snd x with
  | Some c => beyond (lower_of (fst x)) c /\ ~ beyond (upper_of (fst x)) c /\ Forall (fun u => tle c (time_of u) = true) (contents (fst x))
  | None => contents (fst x) = []
  end.
Definition sent_of (log : list (B * option T)) : list (T * B) := flat_map (fun x => match snd x with Some c => [(c, fst x)] | None => [] end) log.

Lemma commit_ok F recv : antichain F -> forall caps b w h,
  w_inv w h -> (exists up, w_writer w = Some up /\ same_future up (mb_lower b)) -> bgood b -> antichain (mb_lower b) ->
  antichain caps -> (forall t, beyond (F ++ caps) t -> beyond (mb_lower b) t) ->
  (forall d t, wt (bflat b) (d, t) = if beyondb (mb_lower b) t then wt recv (d, t) else dzero) ->
  (forall d t, wt (bflat b) (d, t) <> dzero -> beyond (F ++ caps) t) ->
  (exists c, In c caps /\ ~ beyond F c) ->
  exists b' w' outs log, a_commit ops m_merge m_extract m_len build F caps b w = Some (b', w', outs, log) /\
    w_inv w' (h ++ map fst log) /\ (exists up, w_writer w' = Some up /\ same_future up (mb_lower b')) /\ bgood b' /\
    antichain (mb_lower b') /\ same_future (mb_lower b') F /\
    (forall d t, wt (bflat b') (d, t) = if beyondb F t then wt recv (d, t) else dzero) /\
    Forall (entry_ok recv) log /\ Forall (fun x => forall t, beyond F t -> beyond (upper_of (fst x)) t) log /\ outs = sent_of log /\
    antichain (mb_frontier b') /\ (forall t, beyond (mb_frontier b') t <-> exists d t', tle t' t = true /\ beyond F t' /\ wt recv (d, t') <> dzero).
Proof.
  intros HF. induction caps as [|c later IH]; intros b w h I (up & Hw & Hup) Gb Hac Hcaps Hlow Hheld Hcov (c0 & Hc0 & Hnb); [destruct Hc0|]. cbn [a_commit].
  destruct (ac_less_equal F c) eqn:Ec; cbn [negb].
  - (* beyond the frontier: skipped *)
    apply ac_less_equal_spec in Ec. apply IH; auto.
    + exists up. auto.
    + inversion Hcaps; auto.
    + intros t Ht. apply Hlow. rewrite beyond_app, beyond_cons. rewrite beyond_app in Ht. tauto.
    + intros d t Hn. specialize (Hcov d t Hn). rewrite beyond_app, beyond_cons in Hcov. rewrite beyond_app. destruct Hcov as [H|[H|H]]; auto. left. apply (beyond_mono _ c); auto.
    + exists c0. split; auto. destruct Hc0 as [->|]; auto. contradiction.
  - apply ac_less_equal_false in Ec. set (upper := ac_extend (ac_extend [] F) later).
    assert (Hu : forall t, beyond upper t <-> beyond (F ++ later) t). { intros t. unfold upper. rewrite ac_extend_beyond, (ac_from_beyond F t : beyond (ac_extend [] F) t <-> _), beyond_app. tauto. }
    assert (Hau : antichain upper) by (apply ac_extend_antichain, ac_extend_antichain; constructor).
    assert (Hlc : beyond (mb_lower b) c) by (apply Hlow; rewrite beyond_app, beyond_cons; right; left; apply tle_refl).
    assert (Hnu : ~ beyond upper c).
    { rewrite Hu, beyond_app. intros [H|(x & Hx & Hle)]; [contradiction|]. inversion Hcaps as [|? ? Hall _]; subst. destruct (Hall x Hx) as [_ H]. congruence. }
    assert (Hne : mb_lower b <> []) by (intros E0; rewrite E0 in Hlc; apply (beyond_nil _ Hlc)).
    destruct (bseal_ok b upper (bflat b) Gb (same_weights_refl _) Hne) as (b1 & chain & d & E1 & G1 & Gc & L1 & Ed & W1 & S1). rewrite E1.
    destruct (Hbuild chain d Gc) as (Bo & Bc & Bd).
    assert (El : lower_of (build chain d) = mb_lower b) by (unfold BatchLaws.lower_of; rewrite Bd, Ed; auto).
    assert (Eu : upper_of (build chain d) = upper) by (unfold BatchLaws.upper_of; rewrite Bd, Ed; auto).
    assert (Es : since_of (build chain d) = [tmin]) by (unfold BatchLaws.since_of; rewrite Bd, Ed; auto).
    assert (Hlu : forall t, beyond upper t -> beyond (mb_lower b) t). { intros t Ht. apply Hlow. apply Hu in Ht. rewrite beyond_app in *. rewrite beyond_cons. tauto. }
    assert (Pb : proper (build chain d)). { constructor; rewrite ?El, ?Eu; auto. intros HS. apply Hnu, (HS c), Hlc. }
    cbn [w_step]. rewrite Hw.
    destruct (insert_ok ops contents laws w h up (build chain d) (Some c) I Hw Pb) as (w1 & Ew & I1 & Hw1 & _).
    { rewrite El. intros t. rewrite (Hup t). tauto. } { intros t. rewrite Es. exists tmin. split; [left; auto|apply tmin_le]. }
    rewrite Ew. 
    assert (Hin : forall d t, wt (concat chain) (d, t) = if beyondb (mb_lower b) t && negb (beyondb upper t) then wt recv (d, t) else dzero).
    { intros d0 t. rewrite (sc_contents _ _ _ _ _ _ S1), Hheld. destruct (beyondb (mb_lower b) t), (beyondb upper t); auto. }
    assert (Hentry : entry_ok recv (build chain d, Some c)).
    { unfold entry_ok. cbn [fst snd]. rewrite El, Eu, Bc. split; [apply (sc_consolidated _ _ _ _ _ _ S1)|split; [exact Hin|split; [exact Hlc|split; [exact Hnu|]]]].
      apply Forall_forall. intros u Hu0. assert (Hnz : wt (concat chain) (fst u) <> dzero) by (apply (consolidated_in_weight _ _ (sc_consolidated _ _ _ _ _ _ S1)), in_map, Hu0).
      destruct u as [[d0 t] r]. unfold time_of. cbn [fst snd] in *. rewrite (sc_contents _ _ _ _ _ _ S1) in Hnz. destruct (beyondb upper t) eqn:Eb; [congruence|].
      specialize (Hcov _ _ Hnz). apply beyondb_false in Eb. rewrite Hu, beyond_app in Eb. rewrite beyond_app, beyond_cons in Hcov. tauto. }
    assert (Hheld1 : forall d t, wt (bflat b1) (d, t) = if beyondb upper t then wt recv (d, t) else dzero).
    { intros d0 t. rewrite (W1 (d0, t)), (weight_filter (A:=D*T) (fun x => beyondb upper (snd x)) (bflat b) (d0, t)). cbn [snd]. destruct (beyondb upper t) eqn:Eb; auto.
      rewrite Hheld. apply beyondb_spec, Hlu, beyondb_spec in Eb. rewrite Eb. auto. }
    destruct (existsb (fun c => negb (ac_less_equal F c)) later) eqn:Ex.
    + apply existsb_exists in Ex as (c1 & Hc1 & Hn1). apply negb_true_iff, ac_less_equal_false in Hn1.
      destruct (IH b1 w1 (h ++ [build chain d])) as (b' & w' & outs & log & E & J1 & J2 & J3 & J4 & J5 & J6 & J7 & J8 & J9 & J10); auto.
      * exists upper. rewrite Hw1, Eu, L1. split; [auto|intros t; tauto].
      * rewrite L1. auto.
      * inversion Hcaps; auto.
      * intros t Ht. rewrite L1. apply Hu, Ht.
      * rewrite L1. exact Hheld1.
      * intros d0 t Hn. rewrite Hheld1 in Hn. destruct (beyondb upper t) eqn:Eb; [|congruence]. apply Hu, beyondb_spec, Eb.
      * exists c1. auto.
      * rewrite E. exists b', w', ((c, build chain d) :: outs), ((build chain d, Some c) :: log). split; [reflexivity|]. cbn [map fst]. rewrite <- app_assoc in J1. cbn [app] in J1.
        split; [exact J1|split; [exact J2|split; [exact J3|split; [exact J4|split; [exact J5|split; [exact J6|split; [|split; [|split; [|exact J10]]]]]]]]].
        -- constructor; auto.
        -- constructor; auto. intros t Ht. cbn [fst]. rewrite Eu. apply Hu, beyond_app. auto.
        -- rewrite J9. reflexivity.
    + (* no more batches *)
      assert (Hall : forall x, In x later -> beyond F x).
      { intros x Hx. destruct (ac_less_equal F x) eqn:Ef; [apply ac_less_equal_spec; auto|]. assert (existsb (fun c => negb (ac_less_equal F c)) later = true) by (apply existsb_exists; exists x; rewrite Ef; auto). congruence. }
      assert (Hskip : forall l b w, (forall x, In x l -> beyond F x) -> a_commit ops m_merge m_extract m_len build F l b w = Some (b, w, [], [])).
      { clear. induction l as [|x l IHl]; intros b w H; cbn [a_commit]; auto. replace (ac_less_equal F x) with true by (symmetry; apply ac_less_equal_spec, H; left; auto). cbn [negb]. apply IHl. intros y Hy. apply H. right; auto. }
      rewrite (Hskip later b1 w1 Hall). 
      assert (HsF : same_future upper F). { intros t. rewrite Hu, beyond_app. split; [|auto]. intros [H|(x & Hx & Hle)]; auto. apply (beyond_mono _ x); auto. }
      exists b1, w1, [(c, build chain d)], [(build chain d, Some c)]. split; [reflexivity|]. cbn [map fst].
      split; [exact I1|split; [exists upper; rewrite Hw1, Eu, L1; split; [auto|intros t; tauto]|split; [exact G1|split; [rewrite L1; auto|split; [rewrite L1; auto|split; [|split; [constructor; auto|split; [|split; [reflexivity|]]]]]]]]].
      * intros d0 t. rewrite Hheld1. rewrite (beyondb_same _ _ t HsF). auto.
      * constructor; auto. intros t Ht. cbn [fst]. rewrite Eu. apply HsF; auto.
      * split; [apply (sc_frontier_antichain _ _ _ _ _ _ S1)|]. intros t. rewrite (sc_frontier _ _ _ _ _ _ S1). split; intros (d0 & t' & Hle & Hb & Hn); exists d0, t'.
        -- rewrite Hheld in Hn. destruct (beyondb (mb_lower b) t'); [|congruence]. split; [auto|split; [apply HsF, beyondb_spec, Hb|auto]].
        -- split; [auto|split; [apply beyondb_spec, HsF, Hb|]]. rewrite Hheld. replace (beyondb (mb_lower b) t') with true; auto. symmetry. apply beyondb_spec, Hlu, HsF, Hb.
Qed.

Lemma downgrade_ok (caps times : list T) : (forall t, In t times -> beyond caps t) -> a_downgrade caps times = Some (ac_extend [] times).
Proof.
  unfold a_downgrade, ac_extend. generalize (@nil T). induction times as [|t times IH]; intros acc H; cbn [fold_left]; auto.
  destruct (find (fun c => tle c t) caps) as [x|] eqn:Ef.
  - apply IH. intros y Hy. apply H. right; auto.
  - exfalso. destruct (H t (or_introl eq_refl)) as (c & Hc & Hle). pose proof (find_none _ _ Ef c Hc) as Hn. cbn in Hn. congruence.
Qed.

(** ** The whole *)
Notation aworld := (aworld B M D T R).
Record ainv (aw : aworld) : Prop := {
  ai_trace : w_inv (aw_trace aw) (map fst (aw_log aw));
  ai_writer : exists up, w_writer (aw_trace aw) = Some up /\ same_future up (aw_front aw);
  ai_prev : antichain (as_prev (aw_op aw)) /\ same_future (as_prev (aw_op aw)) (aw_front aw);
  ai_lower : antichain (mb_lower (as_batcher (aw_op aw))) /\ same_future (mb_lower (as_batcher (aw_op aw))) (aw_front aw);
  ai_recv : recv_inv (aw_op aw) (as_prev (aw_op aw)) (aw_received aw);
  ai_flight : Forall (fun m => beyond (aw_front aw) (fst m) /\ Forall (fun u => tle (fst m) (time_of u) = true) (snd m)) (aw_flight aw);
  ai_log : Forall (entry_ok (aw_received aw)) (aw_log aw);
  ai_before : Forall (fun x => forall t, beyond (aw_front aw) t -> beyond (upper_of (fst x)) t) (aw_log aw);
  ai_out : aw_out aw = sent_of (aw_log aw)
}.
Lemma entry_more recv us x : entry_ok recv x -> (forall u, In u us -> beyond (upper_of (fst x)) (time_of u)) -> entry_ok (recv ++ us) x.
Proof.
  intros (H1 & H2 & H3) Hu. split; [auto|split; [|auto]]. intros d t. rewrite H2, weight_app. destruct (beyondb (lower_of (fst x)) t && negb (beyondb (upper_of (fst x)) t)) eqn:E; auto.
  rewrite (weight_notin us), dplus_0_r; auto. intros Hin. apply in_map_iff in Hin as (u & Eu & Hin). specialize (Hu u Hin). unfold time_of in Hu. rewrite Eu in Hu. cbn [snd] in Hu.
  apply beyondb_spec in Hu. rewrite Hu in E. cbn in E. rewrite andb_false_r in E. discriminate.
Qed.
Lemma sent_app l1 l2 : sent_of (l1 ++ l2) = sent_of l1 ++ sent_of l2. Proof. apply flat_map_app. Qed.

Lemma exert_step w h answer : w_inv w h -> exists w', w_step ops w (CExert answer) = Some (w', []) /\ w_inv w' h /\ w_writer w' = w_writer w.
Proof.
  intros I. destruct (step_ok ops contents laws w h (CExert answer) I) as (w' & bs & E & I'); [cbn; auto|]. cbn [w_step] in E |- *.
  destruct (w_writer w) as [up|] eqn:Ew; [|inversion E; subst; exists w'; cbn [map] in I'; rewrite app_nil_r in I'; auto].
  destruct (w_box w) as [bx|]; [|inversion E; subst; exists w'; cbn [map] in I'; rewrite app_nil_r in I'; auto].
  destruct (spine_exert ops (bx_trace bx) answer); [|discriminate]. inversion E; subst. cbn [map] in I'; rewrite app_nil_r in I'. eexists. split; [reflexivity|auto].
Qed.
Lemma reader_step w h c w' bs : w_inv w h -> reader_command c -> w_step ops w c = Some (w', bs) -> bs = [] /\ w_inv w' h /\ w_writer w' = w_writer w.
Proof.
  intros I Hc E. assert (HL : legal ops contents laws w c) by (destruct c; cbn in *; auto; contradiction).
  destruct (step_ok ops contents laws w h c I HL) as (w0 & bs0 & E0 & I0). rewrite E in E0. inversion E0; subst w0 bs0.
  assert (H : bs = [] /\ w_writer w' = w_writer w).
  { clear - E Hc. destruct c; cbn [w_step reader_command] in *; try contradiction;
      repeat match type of E with context [match ?x with _ => _ end] => destruct x eqn:?; try discriminate end; inversion E; subst; auto. }
  destruct H as [-> H]. cbn [map] in I0. rewrite app_nil_r in I0. auto.
Qed.

Lemma activate_ok aw msgs q' F' answer : ainv aw -> may_deliver (aw_flight aw) (aw_front aw) msgs q' F' ->
  exists st' w' outs bs, a_activate ops full m_merge m_extract m_len build msgs F' answer (aw_op aw) (aw_trace aw) = Some (st', w', outs, bs) /\
    ainv {| aw_trace := w'; aw_op := st'; aw_flight := q'; aw_front := F'; aw_received := aw_received aw ++ flat_map snd msgs;
            aw_log := aw_log aw ++ bs; aw_out := aw_out aw ++ outs |} /\
    (forall t, beyond (as_caps st') t -> beyond F' t).
Proof.
  intros I (HP & HF & Hle & Hrest). destruct aw as [w st q F recv log out]. cbn [aw_trace aw_op aw_flight aw_front aw_received aw_log aw_out] in *.
  destruct I as [IT (up & Hw & Hup) [Hpa Hp] [Hla Hl] IR IF IL IB IO]. cbn [aw_trace aw_op aw_flight aw_front aw_received aw_log aw_out] in *.
  set (prev := as_prev st) in *.
  apply (Permutation_Forall HP) in IF. apply Forall_app in IF as [IFm IFr].
  destruct (receive_ok msgs prev st recv IR) as (st1 & E1 & I1 & L1).
  { eapply Forall_impl; [|exact IFm]. intros m [H1 H2]. split; auto. apply Hp; auto. }
  unfold a_activate. rewrite E1. set (recv1 := recv ++ flat_map snd msgs) in *.
  assert (Hnew : forall u, In u (flat_map snd msgs) -> beyond F (time_of u)).
  { intros u Hu. apply in_flat_map in Hu as (m & Hm & Hu). destruct (proj1 (Forall_forall _ _) IFm m Hm) as [H1 H2]. apply (beyond_mono _ (fst m)); auto. apply (proj1 (Forall_forall _ _) H2 u Hu). }
  assert (IL1 : Forall (entry_ok recv1) log).
  { apply Forall_forall. intros x Hx. apply entry_more; [apply (proj1 (Forall_forall _ _) IL x Hx)|]. intros u Hu. apply (proj1 (Forall_forall _ _) IB x Hx). auto. }
  assert (IB1 : Forall (fun x : B * option T => forall t, beyond F' t -> beyond (upper_of (fst x)) t) log).
  { eapply Forall_impl; [|exact IB]. cbn. auto. }
  assert (Hq : Forall (fun m => beyond F' (fst m) /\ Forall (fun u => tle (fst m) (time_of u) = true) (snd m)) q').
  { apply Forall_forall. intros m Hm. split; [apply (proj1 (Forall_forall _ _) Hrest m Hm)|apply (proj1 (Forall_forall _ _) IFr m Hm)]. }
  pose proof (ri_prev _ _ _ I1) as Ep. rewrite Ep.
  replace (ac_le prev F') with true by (symmetry; apply ac_le_spec; intros t Ht; apply Hp, Hle, Ht). cbn [negb].
  (* the work *)
  assert (HWork : exists st2 w2 outs bs, a_work ops m_merge m_extract m_len build F' st1 w = Some (st2, w2, outs, bs) /\
     w_inv w2 (map fst log ++ map fst bs) /\ (exists up, w_writer w2 = Some up /\ same_future up F') /\
     antichain (as_prev st2) /\ same_future (as_prev st2) F' /\ antichain (mb_lower (as_batcher st2)) /\ same_future (mb_lower (as_batcher st2)) F' /\
     recv_inv st2 (as_prev st2) recv1 /\ Forall (entry_ok recv1) bs /\ Forall (fun x => forall t, beyond F' t -> beyond (upper_of (fst x)) t) bs /\ outs = sent_of bs).
  2:{ destruct HWork as (st2 & w2 & outs & bs & E2 & J1 & (up2 & Jw & Ju) & J3 & J4 & J5 & J6 & J7 & J8 & J9 & J10). rewrite E2.
      destruct (exert_step w2 _ answer J1) as (w3 & E3 & K1 & K2). rewrite E3. rewrite app_nil_r. eexists _, _, _, _. split; [reflexivity|]. split.
      - constructor; cbn [aw_trace aw_op aw_flight aw_front aw_received aw_log aw_out]; auto.
        + rewrite map_app. exact K1.
        + exists up2. rewrite K2. auto.
        + apply Forall_app. auto.
        + apply Forall_app. auto.
        + rewrite sent_app, IO, J10. auto.
      - intros t (c & Hc & Hct). apply (beyond_mono _ c); auto. apply J4. apply (proj1 (Forall_forall _ _) (ri_beyond _ _ _ J7) c Hc). }
  unfold a_work. rewrite Ep. destruct (ac_eqb prev F') eqn:Eq; cbn [negb].
  - assert (HS : same_future prev F') by (apply ac_eqb_spec; auto).
    exists st1, w, [], []. split; [reflexivity|]. cbn [map]. rewrite app_nil_r, Ep, L1. 
    split; [exact IT|split; [exists up; split; [auto|]|split; [exact Hpa|split; [exact HS|split; [exact Hla|split; [|split; [exact I1|auto]]]]]]].
    + intros t. rewrite (Hup t), <- (Hp t). apply HS.
    + intros t. rewrite (Hl t), <- (Hp t). apply HS.
  - assert (HnS : ~ same_future prev F') by (intros H; apply ac_eqb_spec in H; auto; congruence).
    destruct (drain_finish _ _ (ri_ready _ _ _ I1) (ri_good _ _ _ I1)) as (k & b & E2 & Fk & Gb & Lb & Hk & Wb). rewrite E2.
    assert (Hhb : forall d t, wt (bflat b) (d, t) = if beyondb prev t then wt recv1 (d, t) else dzero) by (intros d t; rewrite (Wb (d, t)); apply (ri_held _ _ _ I1)).
    assert (Hcov : forall d t, wt (bflat b) (d, t) <> dzero -> beyond (as_caps st1) t) by (intros d t; rewrite (Wb (d, t)); apply (ri_cover _ _ _ I1)).
    assert (Hlp : same_future (mb_lower b) prev) by (intros t; rewrite Lb, L1, (Hl t), <- (Hp t); reflexivity).
    assert (Hlab : antichain (mb_lower b)) by (rewrite Lb, L1; auto).
    assert (HpF : forall t, beyond F' t -> beyond prev t) by (intros t Ht; apply Hp; auto).
    assert (HaF : antichain (ac_extend [] F')) by (apply ac_extend_antichain; constructor).
    assert (HsF : same_future (ac_extend [] F') F') by (exact (ac_from_beyond F')).
    destruct (existsb (fun c => negb (ac_less_equal F' c)) (as_caps st1)) eqn:Ex.
    + apply existsb_exists in Ex as (c0 & Hc0 & Hn0). apply negb_true_iff, ac_less_equal_false in Hn0.
      destruct (commit_ok F' recv1 HF (as_caps st1) b w (map fst log)) as (b' & w' & outs & bs & E3 & J1 & J2 & J3 & J4 & J5 & J6 & J7 & J8 & J9 & J10 & J11); auto.
      * exists up. split; auto. intros t. rewrite (Hup t), <- (Hp t). symmetry. apply Hlp.
      * apply I1.
      * intros t. rewrite beyond_app. intros [H|(c & Hc & Hct)]; apply Hlp; [auto|]. apply (beyond_mono _ c); auto. apply (proj1 (Forall_forall _ _) (ri_beyond _ _ _ I1) c Hc).
      * intros d t. rewrite (beyondb_same _ _ t Hlp). auto.
      * intros d t Hn. rewrite beyond_app. right. eapply Hcov; eauto.
      * exists c0. auto.
      * rewrite E3. 
        assert (Hfr : forall t, In t (mb_frontier b') -> exists d t', tle t' t = true /\ beyond F' t' /\ wt recv1 (d, t') <> dzero) by (intros t Ht; apply J11, beyond_in, Ht).
        rewrite (downgrade_ok (as_caps st1) (mb_frontier b')).
        2:{ intros t Ht. destruct (Hfr t Ht) as (d & t' & Hlt & Hb & Hn). apply (beyond_mono _ t'); auto. apply (Hcov d). rewrite Hhb. apply HpF in Hb. apply beyondb_spec in Hb. rewrite Hb. auto. }
        eexists _, w', outs, bs. split; [reflexivity|]. cbn [as_prev as_batcher].
        split; [exact J1|split; [|split; [exact HaF|split; [exact HsF|split; [exact J4|split; [exact J5|split; [|auto]]]]]]].
        -- destruct J2 as (up2 & Jw & Ju). exists up2. split; auto. intros t. rewrite (Ju t). apply J5.
        -- constructor; cbn [as_chunker as_batcher as_caps as_prev]; auto.
           ++ intros d t. unfold st_held. cbn [as_chunker as_batcher]. rewrite Hk. cbn [app]. rewrite J6, (beyondb_same _ _ t HsF). auto.
           ++ apply ac_extend_antichain. constructor.
           ++ apply Forall_forall. intros t Ht. apply ac_extend_incl in Ht as [[]|Ht]. destruct (Hfr t Ht) as (d & t' & Hlt & Hb & _). apply HsF. apply (beyond_mono _ t'); auto.
           ++ intros d t. unfold st_held. cbn [as_chunker as_batcher]. rewrite Hk. cbn [app]. rewrite J6. destruct (beyondb F' t) eqn:Eb; [|congruence]. intros Hn.
              apply ac_extend_beyond. right. apply J11. exists d, t. split; [apply tle_refl|split; [apply beyondb_spec; auto|auto]].
    + assert (Hall : forall c, In c (as_caps st1) -> beyond F' c).
      { intros c Hc. destruct (ac_less_equal F' c) eqn:Ef; [apply ac_less_equal_spec; auto|]. assert (existsb (fun c => negb (ac_less_equal F' c)) (as_caps st1) = true) by (apply existsb_exists; exists c; rewrite Ef; auto). congruence. }
      assert (HcF : forall t, beyond (as_caps st1) t -> beyond F' t) by (intros t (c & Hc & Hct); apply (beyond_mono _ c); auto).
      assert (Hne : mb_lower b <> []).
      { intros E0. apply HnS. intros t. split; intros Ht; [apply Hlp in Ht; rewrite E0 in Ht; destruct (beyond_nil _ Ht)|auto]. }
      destruct (bseal_ok b F' (bflat b) Gb (same_weights_refl _) Hne) as (b1 & chain & d & E3 & G1 & _ & Lb1 & _ & W1 & _). rewrite E3.
      cbn [w_step]. rewrite Hw.
      destruct (seal_ok ops contents laws w (map fst log) up F' IT Hw HF) as (w' & bs & E4 & J1 & Jw & _ & Jb & _).
      { intros t Ht. apply Hup, Hle, Ht. }
      rewrite E4. eexists _, w', [], bs. split; [reflexivity|]. cbn [as_prev as_batcher].
      assert (Hneq : ac_eqb up F' = false).
      { destruct (ac_eqb up F') eqn:E0; auto. exfalso. apply HnS. apply ac_eqb_spec in E0; auto; [|pose proof (wi_upper _ _ _ _ _ IT) as Hwu; unfold w_upper in Hwu; rewrite Hw in Hwu; auto]. intros t. rewrite <- (E0 t), (Hup t), <- (Hp t). tauto. }
      rewrite Hneq in Jw.
      assert (Hzero : forall d0 t, beyond prev t -> ~ beyond F' t -> wt recv1 (d0, t) = dzero).
      { intros d0 t Hb Hn. destruct (is_zero (wt recv1 (d0, t))) eqn:Ez; [apply is_zero_spec; auto|]. exfalso. apply Hn, HcF, (Hcov d0). rewrite Hhb. apply beyondb_spec in Hb. rewrite Hb.
        intros H0. apply is_zero_spec in H0. congruence. }
      (* the batch sealed *)
      assert (Hbs : Forall (entry_ok recv1) bs /\ Forall (fun x => forall t, beyond F' t -> beyond (upper_of (fst x)) t) bs /\ [] = sent_of bs).
      { unfold writer_seal in E4. rewrite Hneq in E4. cbn [negb] in E4. destruct (b_empty ops up F') as [b0|] eqn:E0; [|discriminate]. destruct (writer_insert ops w up b0 None) as [w0|] eqn:Ei; [|discriminate]. inversion E4; subst w0 bs.
        destruct (bl_empty _ _ laws up F') as (b0' & E0' & _ & Hc & El & Eu & _).
        { intros ->. apply HnS. intros t. split; intros Ht; [apply Hp, Hup in Ht; destruct (beyond_nil _ Ht)|auto]. }
        rewrite E0 in E0'. inversion E0'; subst b0'. split; [|split].
        - constructor; [|constructor]. split; cbn [fst snd]; [rewrite Hc; apply consolidated_nil|split; [|exact Hc]]. intros d0 t. rewrite Hc, El, Eu. destruct (beyondb up t) eqn:Eb1, (beyondb F' t) eqn:Eb2; cbn; auto.
          symmetry. apply Hzero; [apply Hp, Hup, beyondb_spec; auto|apply beyondb_false; auto].
        - constructor; [|constructor]. cbn [fst]. rewrite Eu. auto.
        - reflexivity. }
      split; [exact J1|split; [exists F'; split; [auto|intros t; tauto]|split; [exact HaF|split; [exact HsF|split; [rewrite Lb1; auto|split; [rewrite Lb1; intros t; tauto|split; [|tauto]]]]]]].
      assert (Hh1 : forall d0 t, wt (bflat b1) (d0, t) = if beyondb F' t then wt recv1 (d0, t) else dzero).
      { intros d0 t. rewrite (W1 (d0, t)), (weight_filter (A:=D*T) (fun x => beyondb F' (snd x)) (bflat b) (d0, t)). cbn [snd]. destruct (beyondb F' t) eqn:Eb; auto. rewrite Hhb.
        apply beyondb_spec, HpF, beyondb_spec in Eb. rewrite Eb. auto. }
      constructor; cbn [as_chunker as_batcher as_caps as_prev]; auto.
      * intros d0 t. unfold st_held. cbn [as_chunker as_batcher]. rewrite Hk. cbn [app]. rewrite Hh1, (beyondb_same _ _ t HsF). auto.
      * apply I1.
      * apply Forall_forall. intros c Hc. apply HsF, Hall, Hc.
      * intros d0 t. unfold st_held. cbn [as_chunker as_batcher]. rewrite Hk. cbn [app]. rewrite Hh1. destruct (beyondb F' t) eqn:Eb; [|congruence]. intros Hn. apply (Hcov d0). rewrite Hhb.
        apply beyondb_spec, HpF, beyondb_spec in Eb. rewrite Eb. auto.
Qed.

Lemma areaches_inv e aw : areaches ops full m_merge m_extract m_len build e aw -> ainv aw.
Proof.
  induction 1 as [|w w' _ IH HS].
  - constructor; cbn [aw_trace aw_op aw_flight aw_front aw_received aw_log aw_out map a_start as_chunker as_batcher as_caps as_prev mb_new mb_lower]; auto.
    + apply new_ok.
    + exists (ac_from [tmin]). split; [reflexivity|]. intros t. apply (ac_from_beyond [tmin] t).
    + split; [apply (ac_from_antichain [tmin])|intros t; tauto].
    + split; [apply (ac_from_antichain [tmin])|intros t; tauto].
    + constructor; cbn [as_chunker as_batcher as_caps as_prev a_start]; auto; try constructor.
      * intros d t. destruct (beyondb [tmin] t); auto.
      * intros d t H. destruct H. reflexivity.
  - inversion HS as [w0 st q F r l o c us Hc Hus|w0 st q F r l o c w1 bs Hc E|w0 st q F r l o msgs q' F' answer st' w1 outs bs HD E]; subst.
    + destruct IH. constructor; auto. apply Forall_app. split; auto.
    + destruct IH as [I1 I2 I3 I4 I5 I6 I7 I8 I9]. cbn [aw_trace aw_op aw_flight aw_front aw_received aw_log aw_out] in *. destruct (reader_step _ _ _ _ _ I1 Hc E) as (-> & J1 & J2).
      constructor; cbn [aw_trace aw_op aw_flight aw_front aw_received aw_log aw_out]; auto. rewrite J2. auto.
    + destruct (activate_ok _ msgs q' F' answer IH HD) as (st2 & w2 & outs2 & bs2 & E2 & I2 & _). cbn [aw_trace aw_op aw_flight aw_front aw_received aw_log aw_out] in *. rewrite E in E2. inversion E2; subst. exact I2.
Qed.

(** All batches together. *)
Lemma log_weights recv log up d t : forall lo, tiles ops lo (map fst log) up -> Forall (entry_ok recv) log -> Forall proper (map fst log) ->
  wt (flat_map contents (map fst log)) (d, t) = (if beyondb lo t && negb (beyondb up t) then wt recv (d, t) else dzero) /\ (forall s, beyond up s -> beyond lo s).
Proof.
  induction log as [|x log IH]; intros lo HT HE HPr; cbn [map flat_map] in *; inversion HT as [? ? H0|? ? ? ? H2 H4]; subst.
  - split; [|intros s; apply H0]. rewrite (beyondb_same _ _ t H0). destruct (beyondb up t); auto.
  - inversion HE as [|? ? (_ & He & _) HE']; subst. inversion HPr as [|? ? Pb HPr']; subst. destruct (IH _ H4 HE' HPr') as [W Hle].
    assert (Hlo : forall s, beyond up s -> beyond lo s) by (intros s Hs; apply H2, (pr_le _ _ _ _ Pb); auto). split; [|auto].
    rewrite weight_app, W, He. rewrite (beyondb_same _ _ t H2).
    destruct (beyondb (lower_of (fst x)) t) eqn:E1, (beyondb (upper_of (fst x)) t) eqn:E2, (beyondb up t) eqn:E3; cbn [andb negb]; rewrite ?dplus_0_l, ?dplus_0_r; auto; exfalso;
      apply beyondb_spec in E2 || apply beyondb_false in E2; apply beyondb_spec in E3 || apply beyondb_false in E3; apply beyondb_spec in E1 || apply beyondb_false in E1;
      first [apply E2, Hle, E3 | apply E1, (pr_le _ _ _ _ Pb), E2].
Qed.
End ArrangeP.
