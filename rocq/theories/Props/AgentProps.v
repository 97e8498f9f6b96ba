(** C18, C19: a trace shared by handles and fed by a writer, whose batches listeners receive.

    The theorems are for every batch type that meets [BatchLaws], every effort, and every interleaving of
    cloning, dropping and advancing handles, inserting and sealing batches, background work, attaching,
    emptying and dropping queues ([legal_run]: handles may be used in any way, the writer must follow its
    upper frontier). *)
From Verif Require Import Base.Collections Spec.BatchSpec Spec.BatchLaws Spec.AgentSpec Model.OrdNeuM
  Proofs.LatticeP Proofs.SpineP Proofs.SpineInstP Proofs.AgentP Props.OrdNeuProps Props.SpineProps.

(** ** C18: no history panics, and while there is a handle the frontiers applied to the shared trace are
    exactly the meets of those held by the live handles: a time is within reach of the trace iff it is
    within reach of one of the handles.  Without handles the trace is gone. *)
Theorem c18_handles_protected : forall (B M D T R : Type) (OD : Ord D) (TT : Time T) (DR : Diff R)
  (ops : BatchOps B M T) (contents : B -> list (D * T * R)) (laws : BatchLaws ops contents) e l,
  legal_run ops contents laws (world_new (with_effort e)) l ->
  exists w log, w_run ops (world_new (with_effort e)) l = Some (w, log) /\
  match w_box w with
  | Some bx => live w <> [] /\
      (forall t, beyond (logical (bx_trace bx)) t <-> exists a, In a (live w) /\ beyond (ag_logical a) t) /\
      (forall t, beyond (physical (bx_trace bx)) t <-> exists a, In a (live w) /\ beyond (ag_physical a) t)
  | None => live w = []
  end.
Proof.
  intros B M D T R OD TT DR ops contents laws e l HL. destruct (run_ok ops contents laws l _ _ (new_ok ops contents laws e) HL) as (w & log & E & I).
  exists w, log. split; auto. pose proof (wi_box _ _ _ _ _ I) as Hb. destruct (w_box w) as [bx|]; auto. destruct Hb as [[B1 B2 (n & HS)] Hl]. split; auto. split; intros t.
  - rewrite (si_logical _ _ _ _ _ _ _ _ _ HS t), (holds_frontier _ _ B1 t). split; intros (F & HF & Hb); [apply in_map_iff in HF as (a & <- & Ha); exists a; auto|exists (ag_logical F); split; [apply in_map; auto|auto]].
  - rewrite (si_physical _ _ _ _ _ _ _ _ _ HS t), (holds_frontier _ _ B2 t). split; intros (F & HF & Hb); [apply in_map_iff in HF as (a & <- & Ha); exists a; auto|exists (ag_physical F); split; [apply in_map; auto|auto]].
Qed.
Print Assumptions c18_handles_protected.

(** What a handle reads: at times within its logical frontier, the trace accumulates to all that was
    inserted, whatever other handles did; and for a boundary between inserted batches that its physical
    frontier has not passed, the trace gives the batches up to there. *)
Theorem c18_reads_through_handles : forall (B M D T R : Type) (OD : Ord D) (TT : Time T) (DR : Diff R)
  (ops : BatchOps B M T) (contents : B -> list (D * T * R)) (laws : BatchLaws ops contents) e l,
  legal_run ops contents laws (world_new (with_effort e)) l ->
  exists w log, w_run ops (world_new (with_effort e)) l = Some (w, log) /\
  forall a, In a (live w) -> exists bx, w_box w = Some bx /\
    same_beyond (ag_logical a) (flat_map contents (map_batches (bx_trace bx))) (flat_map contents (map fst log)) /\
    (forall h1 h2 F, map fst log = h1 ++ h2 -> tiles ops [tmin] h1 F -> antichain F -> ag_logical a <> [] ->
       (forall t, beyond F t -> beyond (ag_physical a) t) ->
       exists bs, batches_through ops (bx_trace bx) F = Some bs /\ same_beyond (ag_logical a) (flat_map contents bs) (flat_map contents h1)).
Proof.
  intros B M D T R OD TT DR ops contents laws e l HL. destruct (run_ok ops contents laws l _ _ (new_ok ops contents laws e) HL) as (w & log & E & I).
  exists w, log. split; auto. intros a Ha. pose proof (wi_box _ _ _ _ _ I) as Hb. destruct (w_box w) as [bx|]; [|rewrite Hb in Ha; destruct Ha]. destruct Hb as [[B1 B2 (n & HS)] Hl]. exists bx. split; auto.
  cbn [app] in HS.
  assert (HLe : forall t, beyond (ag_logical a) t -> beyond (ma_frontier (bx_logical bx)) t) by (intros t Ht; apply (holds_frontier _ _ B1 t); exists (ag_logical a); split; [apply in_map; auto|auto]).
  split.
  - eapply same_beyond_mono; [|apply (cov_same _ _ _ _ _ _ (Sinv_cov _ _ _ _ _ _ _ _ _ HS))]. intros t Ht. apply (si_logical _ _ _ _ _ _ _ _ _ HS), HLe, Ht.
  - intros h1 h2 F Eh HT HF Hne HP. rewrite Eh in HS.
    destruct (batches_through_ok _ _ _ _ _ _ _ _ _ _ F F HS) as (bs & Eb & Hs & _); auto.
    + intros H0. destruct (ag_logical a) as [|x la]; [contradiction|]. apply (beyond_nil (T:=T) x). rewrite <- H0. apply HLe. exists x. split; [left; auto|apply tle_refl].
    + intros t Ht. apply (holds_frontier _ _ B2 t). exists (ag_physical a). split; [apply in_map; auto|auto].
    + intros t. reflexivity.
    + exists bs. split; auto. eapply same_beyond_mono; [|exact Hs]. exact HLe.
Qed.
Print Assumptions c18_reads_through_handles.

(** One command: a handle's frontier becomes the join of what it was and what it is set to; no other
    command moves it, whichever handle it is given to. *)
Theorem c18_only_own_commands_move_a_handle : forall (B M D T R : Type) (OD : Ord D) (TT : Time T) (DR : Diff R)
  (ops : BatchOps B M T) (contents : B -> list (D * T * R)) (laws : BatchLaws ops contents) e l c i a w log w' bs,
  legal_run ops contents laws (world_new (with_effort e)) (l ++ [c]) ->
  w_run ops (world_new (with_effort e)) l = Some (w, log) -> w_step ops w c = Some (w', bs) -> agent_at w i = Some a ->
  (c = CDrop i -> agent_at w' i = None) /\
  (c <> CDrop i -> exists a', agent_at w' i = Some a' /\
     (forall t, beyond (ag_logical a') t <-> beyond (ag_logical a) t /\ forall F, c = CSetLogical i F -> beyond F t) /\
     (forall t, beyond (ag_physical a') t <-> beyond (ag_physical a) t /\ forall F, c = CSetPhysical i F -> beyond F t)).
Proof.
  intros B M D T R OD TT DR ops contents laws e l c i a w log w' bs HL E Es Ha. destruct (legal_app _ _ _ _ _ _ HL) as [HL1 HL2].
  destruct (run_ok ops contents laws l _ _ (new_ok ops contents laws e) HL1) as (w0 & log0 & E0 & I). rewrite E in E0. inversion E0; subst.
  eapply step_agents; eauto. apply (HL2 _ _ E).
Qed.
Print Assumptions c18_only_own_commands_move_a_handle.

Theorem c18_handles_only_advance : forall (B M D T R : Type) (OD : Ord D) (TT : Time T) (DR : Diff R)
  (ops : BatchOps B M T) (contents : B -> list (D * T * R)) (laws : BatchLaws ops contents) e l1 l2 i a a' w1 log1 w2 log2,
  legal_run ops contents laws (world_new (with_effort e)) (l1 ++ l2) ->
  w_run ops (world_new (with_effort e)) l1 = Some (w1, log1) -> w_run ops w1 l2 = Some (w2, log2) ->
  agent_at w1 i = Some a -> agent_at w2 i = Some a' ->
  (forall t, beyond (ag_logical a') t -> beyond (ag_logical a) t) /\ (forall t, beyond (ag_physical a') t -> beyond (ag_physical a) t).
Proof.
  intros B M D T R OD TT DR ops contents laws e l1 l2 i a a' w1 log1 w2 log2 HL E1 E2 Ha Ha'. destruct (legal_app _ _ _ _ _ _ HL) as [HL1 HL2].
  destruct (run_ok ops contents laws l1 _ _ (new_ok ops contents laws e) HL1) as (w0 & log0 & E0 & I). rewrite E1 in E0. inversion E0; subst.
  eapply run_agents; eauto.
Qed.
Print Assumptions c18_handles_only_advance.

(** Dropping the last handle releases every hold before the trace goes. *)
Theorem c18_last_handle_releases : forall (B M D T R : Type) (OD : Ord D) (TT : Time T) (DR : Diff R)
  (ops : BatchOps B M T) (contents : B -> list (D * T * R)) (laws : BatchLaws ops contents) e l w log a bx,
  legal_run ops contents laws (world_new (with_effort e)) l ->
  w_run ops (world_new (with_effort e)) l = Some (w, log) -> live w = [a] -> w_box w = Some bx ->
  exists bx', agent_drop ops bx a = Some bx' /\ logical (bx_trace bx') = [] /\ physical (bx_trace bx') = [].
Proof.
  intros B M D T R OD TT DR ops contents laws e l w log a bx HL E Hl Hb. destruct (run_ok ops contents laws l _ _ (new_ok ops contents laws e) HL) as (w0 & log0 & E0 & I). rewrite E in E0. inversion E0; subst w0 log0.
  pose proof (wi_box _ _ _ _ _ I) as HB. rewrite Hb, Hl in HB. destruct HB as [HB _]. destruct (drop_ok _ _ _ _ _ _ _ _ HB) as (bx' & Ed & [B1 B2 (n & HS)]). exists bx'. split; auto.
  assert (Hnil : forall F, (forall t : T, ~ beyond F t) -> F = []) by (intros [|x F] H; auto; exfalso; apply (H x); exists x; split; [left; auto|apply tle_refl]).
  split; apply Hnil; intros t Ht.
  - apply (si_logical _ _ _ _ _ _ _ _ _ HS) in Ht. apply (holds_frontier _ _ B1 t) in Ht as (F & [] & _).
  - apply (si_physical _ _ _ _ _ _ _ _ _ HS) in Ht. apply (holds_frontier _ _ B2 t) in Ht as (F & [] & _).
Qed.
Print Assumptions c18_last_handle_releases.

(** ** C19: a queue attached at any moment starts with the batches of the trace at that moment, which tile
    the history so far and accumulate to it within the reach of every handle, followed by the frontier
    reached; then comes each batch inserted later, exactly once, in order, with its hint and followed by
    its upper frontier.  All its batches together tile the time from the minimum to the writer's upper
    frontier, the last frontier it was told; after the writer is dropped this is the empty one. *)
Theorem c19_listener_receives_history : forall (B M D T R : Type) (OD : Ord D) (TT : Time T) (DR : Diff R)
  (ops : BatchOps B M T) (contents : B -> list (D * T * R)) (laws : BatchLaws ops contents) e l1 i l2 w1 log1 a,
  legal_run ops contents laws (world_new (with_effort e)) (l1 ++ CListen i :: l2) ->
  w_run ops (world_new (with_effort e)) l1 = Some (w1, log1) -> agent_at w1 i = Some a ->
  let j := length (w_listeners w1) in
  ~ In (CDropListener j) l2 ->
  exists w2 log2 r l start, w_run ops (world_new (with_effort e)) (l1 ++ CListen i :: l2) = Some (w2, log1 ++ log2) /\
    nth_error (w_listeners w2) j = Some (Some (r, l)) /\
    let received := l_taken l ++ l_queue l in
    received = start ++ announce ops log2 /\
    same_future (frontier_of start) (w_upper w1) /\ tiles ops [tmin] (batches_of start) (w_upper w1) /\
    (forall a, In a (live w1) -> same_beyond (ag_logical a) (flat_map contents (batches_of start)) (flat_map contents (map fst log1))) /\
    same_future (frontier_of received) (w_upper w2) /\ tiles ops [tmin] (batches_of received) (w_upper w2) /\
    (forall a, In a (live w1) -> same_beyond (ag_logical a) (flat_map contents (batches_of received)) (flat_map contents (map fst (log1 ++ log2)))).
Proof.
  intros B M D T R OD TT DR ops contents laws e l1 i l2 w1 log1 a HL E1 Ha j Hnd. destruct (legal_app _ _ _ _ _ _ HL) as [HL1 HL2]. specialize (HL2 _ _ E1).
  destruct (run_ok ops contents laws l1 _ _ (new_ok ops contents laws e) HL1) as (w0 & log0 & E0 & I). rewrite E1 in E0. inversion E0; subst w0 log0. clear E0. cbn [app] in I.
  destruct (run_queues ops contents laws l1 _ _ _ _ (new_ok ops contents laws e) HL1 (new_attached e) E1) as [HA _].
  destruct (listen_ok ops contents laws _ _ _ _ _ I HA HL2 Ha Hnd) as (w2 & log2 & r & l & held & up1 & E2 & I2 & HH & El & Er & Sf1 & Ac1 & Hh & T1 & T2 & Hheld).
  exists w2, log2, r, l, (map (fun b => IBatch b (Some tmin)) held ++ match map fst log1 with [] => [] | _ => [IFrontier up1] end).
  cbv zeta. rewrite run_app, E1, E2. split; [auto|split; [exact El|]]. unfold received in Er. rewrite Er.
  assert (Bs : batches_of (map (fun b => IBatch b (Some tmin)) held ++ match map fst log1 with [] => [] | _ => [IFrontier up1] end) = held).
  { rewrite batches_app, batches_start. destruct (map fst log1); cbn; apply app_nil_r. }
  assert (Fs : frontier_of (map (fun b => IBatch b (Some tmin)) held ++ match map fst log1 with [] => [] | _ => [IFrontier up1] end) = (match map fst log1 with [] => [tmin] | _ => up1 end)).
  { unfold frontier_of. rewrite fold_left_app, frontier_started. destruct (map fst log1) eqn:Em; auto. }
  assert (Sfs : same_future (match map fst log1 with [] => [tmin] | _ => up1 end) up1).
  { destruct (map fst log1) eqn:Em; [|intros t; reflexivity]. rewrite (proj1 Hh eq_refl) in T1. inversion T1; auto. }
  assert (Hsame : forall a, In a (live w1) -> same_beyond (ag_logical a) (flat_map contents held) (flat_map contents (map fst log1))).
  { intros a0 Ha0. pose proof (wi_box _ _ _ _ _ I) as Hb. destruct (w_box w1) as [bx|]; [|rewrite Hb in Ha0; destruct Ha0]. destruct Hb as [[B1 B2 (n & HS)] _]. rewrite (Hheld _ eq_refl).
    eapply same_beyond_mono; [|apply (cov_same _ _ _ _ _ _ (Sinv_cov _ _ _ _ _ _ _ _ _ HS))]. intros t Ht. apply (si_logical _ _ _ _ _ _ _ _ _ HS). apply (holds_frontier _ _ B1 t). exists (ag_logical a0). split; [apply in_map; auto|auto]. }
  split; [auto|split; [rewrite Fs; intros t; rewrite (Sfs t); apply Sf1|split; [rewrite Bs; exact (tiles_up _ _ _ _ _ T1 Sf1)|split; [rewrite Bs; auto|]]]]. rewrite batches_app, Bs, batches_announce. split; [|split].
  - unfold frontier_of in *. rewrite fold_left_app, Fs. apply frontier_announced. exact (tiles_lo _ _ _ _ _ T2 (same_future_sym _ _ Sfs)).
  - eapply tiles_app; eauto.
  - intros a0 Ha0. rewrite map_app, !flat_map_app. apply same_beyond_app; auto. apply same_beyond_refl.
Qed.
Print Assumptions c19_listener_receives_history.

(** The operator that imports a queue never asks for a capability it does not hold, sends every batch
    with updates exactly once and in order, at a time no later than any of its updates, and ends up holding
    the writer's upper frontier (the same times, perhaps in another order): nothing once the writer is dropped. *)
Theorem c19_import_sends_everything : forall (B M D T R : Type) (OD : Ord D) (TT : Time T) (DR : Diff R)
  (ops : BatchOps B M T) (contents : B -> list (D * T * R)) (laws : BatchLaws ops contents) e l1 i l2 w1 log1 a,
  legal_run ops contents laws (world_new (with_effort e)) (l1 ++ CListen i :: l2) ->
  w_run ops (world_new (with_effort e)) l1 = Some (w1, log1) -> agent_at w1 i = Some a ->
  let j := length (w_listeners w1) in
  ~ In (CDropListener j) l2 ->
  exists w2 log r l caps out, w_run ops (world_new (with_effort e)) (l1 ++ CListen i :: l2) = Some (w2, log) /\
    nth_error (w_listeners w2) j = Some (Some (r, l)) /\
    let received := l_taken l ++ l_queue l in
    import_core ops [tmin] received = Some (caps, out) /\ same_future caps (w_upper w2) /\
    map snd out = filter (fun b => negb (b_len ops b =? 0)) (batches_of received) /\
    Forall (fun m => Forall (fun u => tle (fst m) (snd (fst u)) = true) (contents (snd m))) out.
Proof.
  intros B M D T R OD TT DR ops contents laws e l1 i l2 w1 log1 a HL E1 Ha j Hnd. destruct (legal_app _ _ _ _ _ _ HL) as [HL1 HL2]. specialize (HL2 _ _ E1).
  destruct (run_ok ops contents laws l1 _ _ (new_ok ops contents laws e) HL1) as (w0 & log0 & E0 & I). rewrite E1 in E0. inversion E0; subst w0 log0. clear E0. cbn [app] in I.
  destruct (run_queues ops contents laws l1 _ _ _ _ (new_ok ops contents laws e) HL1 (new_attached e) E1) as [HA _].
  destruct (listen_ok ops contents laws _ _ _ _ _ I HA HL2 Ha Hnd) as (w2 & log2 & r & l & held & up1 & E2 & I2 & HH & El & Er & Sf1 & Ac1 & Hh & T1 & T2 & Hheld).
  destruct (import_all ops contents laws held (map fst log1) up1 log2 (w_upper w2) T1) as (caps & out & Eo & Ec & Es & Hs); auto.
  { apply Forall_forall. intros b Hb Hn. pose proof (wi_box _ _ _ _ _ I) as Hbx. destruct (w_box w1) as [bx|]; [|apply agent_live in Ha; rewrite Hbx in Ha; destruct Ha].
    destruct Hbx as [[B1 B2 (n & HS)] _]. rewrite (Hheld _ eq_refl) in Hb. pose proof (cov_ok _ _ _ _ _ _ (Sinv_cov _ _ _ _ _ _ _ _ _ HS)) as HO. apply (proj1 (Forall_forall _ _) HO) in Hb.
    unfold nonempty in Hn. rewrite (bl_len _ _ laws _ Hb) in Hn. destruct (contents b); [auto|discriminate]. }
  exists w2, (log1 ++ log2), r, l, caps, out. cbv zeta. rewrite run_app, E1, E2. split; [auto|split; [exact El|]]. unfold received in Er. rewrite Er. split; [exact Eo|split; [exact Ec|split; [|auto]]].
  rewrite !batches_app, batches_start, batches_announce, Es. unfold sent_by, nonempty. f_equal. f_equal. destruct (map fst log1); cbn; symmetry; apply app_nil_r.
Qed.
Print Assumptions c19_import_sends_everything.

(** Taking the instructions in pieces makes no difference. *)
Theorem c19_import_in_pieces : forall (B M T : Type) (TT : Time T) (ops : BatchOps B M T) caps is1 is2,
  import_core ops caps (is1 ++ is2) =
  match import_core ops caps is1 with
  | Some (caps1, out1) => match import_core ops caps1 is2 with Some (caps2, out2) => Some (caps2, out1 ++ out2) | None => None end
  | None => None
  end.
Proof. intros. apply import_app. Qed.
Print Assumptions c19_import_in_pieces.

(** Importing up to a frontier [until]: the same messages, except a tail of which every update is at or
    beyond [until]; the capabilities are the writer's frontier, until that has passed [until]. *)
Theorem c19_import_until : forall (B M D T R : Type) (OD : Ord D) (TT : Time T) (DR : Diff R)
  (ops : BatchOps B M T) (contents : B -> list (D * T * R)) (laws : BatchLaws ops contents) e l1 i l2 w1 log1 a until,
  legal_run ops contents laws (world_new (with_effort e)) (l1 ++ CListen i :: l2) ->
  w_run ops (world_new (with_effort e)) l1 = Some (w1, log1) -> agent_at w1 i = Some a ->
  let j := length (w_listeners w1) in
  ~ In (CDropListener j) l2 ->
  exists w2 log r l caps1 caps2 sent unsent, w_run ops (world_new (with_effort e)) (l1 ++ CListen i :: l2) = Some (w2, log) /\
    nth_error (w_listeners w2) j = Some (Some (r, l)) /\
    let received := l_taken l ++ l_queue l in
    import_frontier_core ops until [tmin] received = Some (caps1, sent) /\
    import_core ops [tmin] received = Some (caps2, sent ++ unsent) /\
    Forall (fun m => Forall (fun u => beyond until (snd (fst u))) (contents (snd m))) unsent /\
    (unsent = [] /\ caps1 = caps2 \/ caps1 = [] /\ forall t, beyond (w_upper w2) t -> beyond until t).
Proof.
  intros B M D T R OD TT DR ops contents laws e l1 i l2 w1 log1 a until HL E1 Ha j Hnd. destruct (legal_app _ _ _ _ _ _ HL) as [HL1 HL2]. specialize (HL2 _ _ E1).
  destruct (run_ok ops contents laws l1 _ _ (new_ok ops contents laws e) HL1) as (w0 & log0 & E0 & I). rewrite E1 in E0. inversion E0; subst w0 log0. clear E0. cbn [app] in I.
  destruct (run_queues ops contents laws l1 _ _ _ _ (new_ok ops contents laws e) HL1 (new_attached e) E1) as [HA _].
  destruct (listen_ok ops contents laws _ _ _ _ _ I HA HL2 Ha Hnd) as (w2 & log2 & r & l & held & up1 & E2 & I2 & HH & El & Er & Sf1 & Ac1 & Hh & T1 & T2 & Hheld).
  destruct (frontier_all ops contents laws until held (map fst log1) up1 log2 (w_upper w2) T1) as (c1 & c2 & o1 & o2 & R1 & R2 & R3 & R4); auto.
  exists w2, (log1 ++ log2), r, l, c1, c2, o1, o2. cbv zeta. rewrite run_app, E1, E2. unfold received in Er. rewrite Er. split; [auto|split; [exact El|split; [exact R1|split; [exact R2|split; [exact R3|exact R4]]]]].
Qed.
Print Assumptions c19_import_until.

(** The writer accepts no gaps and no empty intervals. *)
Theorem c19_writer_rejects_gaps : forall (B M D T R : Type) (OD : Ord D) (TT : Time T) (DR : Diff R)
  (ops : BatchOps B M T) (contents : B -> list (D * T * R)) (laws : BatchLaws ops contents) e l w log b hint up,
  legal_run ops contents laws (world_new (with_effort e)) l ->
  w_run ops (world_new (with_effort e)) l = Some (w, log) -> w_writer w = Some up ->
  antichain (lower_of ops b) -> antichain (upper_of ops b) ->
  ~ same_future up (lower_of ops b) \/ same_future (lower_of ops b) (upper_of ops b) -> w_step ops w (CInsert b hint) = None.
Proof.
  intros B M D T R OD TT DR ops contents laws e l w log b hint up HL E Hw H1 H2 H. destruct (run_ok ops contents laws l _ _ (new_ok ops contents laws e) HL) as (w0 & log0 & E0 & I). rewrite E in E0. inversion E0; subst w0 log0.
  pose proof (wi_upper _ _ _ _ _ I) as Hu. unfold w_upper in Hu. rewrite Hw in Hu. cbn [w_step]. rewrite Hw. unfold writer_insert.
  change (d_lower (b_desc ops b)) with (lower_of ops b). change (d_upper (b_desc ops b)) with (upper_of ops b).
  destruct (ac_eqb up (lower_of ops b)) eqn:E1; cbn [negb]; auto. apply (ac_eqb_spec _ _ Hu H1) in E1. destruct H as [H|H]; [contradiction|].
  assert (E2 : ac_eqb (lower_of ops b) (upper_of ops b) = true) by (apply ac_eqb_spec; auto). rewrite E2. auto.
Qed.
Print Assumptions c19_writer_rejects_gaps.

(** ** Examples, over batches of ord_neu.rs *)
Definition c18_cmds : list (command (OrdValBatch nat nat nat Z) nat) :=
  [CClone 0; CInsert (nth 0 c14_h (c14_b [] 0 [])) (Some 0); CSetLogical 0 [1]; CSetPhysical 0 [1]; CInsert (nth 1 c14_h (c14_b [] 0 [])) (Some 1);
   CSetLogical 1 [2]].
Definition c18_more : list (command (OrdValBatch nat nat nat Z) nat) :=
  [CSeal [3]; CTake 0; CInsert (nth 3 c14_h (c14_b [] 0 [])) (Some 3); CDrop 0; CExert (Some 5); CDropWriter; CDrop 1].
Example c18_legal : legal_run ov_batch_ops ov_contents ov_laws (world_new (with_effort 1)) (c18_cmds ++ CListen 1 :: c18_more).
Proof.
  assert (HC : forall b, In b c14_h -> proper ov_batch_ops ov_contents ov_laws b).
  { intros b [<-|[<-|[<-|[<-|[<-|[]]]]]]; apply c14_b_proper; try lia; split; simpl; repeat constructor. }
  assert (Hs : forall t, beyond [0] t) by (intros t; exists 0; split; [left; auto|apply nat_tle; lia]).
  unfold c18_cmds, c18_more. cbn [app].
  assert (Hcons : forall (w : World (OrdValBatch nat nat nat Z) (OrdValMerger nat nat nat Z) nat) c l w1 bs1, legal ov_batch_ops ov_contents ov_laws w c -> w_step ov_batch_ops w c = Some (w1, bs1) ->
    legal_run ov_batch_ops ov_contents ov_laws w1 l -> legal_run ov_batch_ops ov_contents ov_laws w (c :: l)).
  { intros w c l w1 bs1 H1 E H2. split; auto. intros w' bs E'. rewrite E in E'. inversion E'; subst. auto. }
  do 14 (eapply Hcons; [shelve|vm_compute; reflexivity|]). exact Logic.I. Unshelve.
  all: try exact Logic.I.
  all: cbn [legal w_writer world_new].
  - split; [apply HC; simpl; tauto|]. split; [intros t; reflexivity|]. split; [exact Hs|]. split; [exists 0; split; [vm_compute; auto|reflexivity]|]. vm_compute. repeat constructor.
  - split; [apply HC; simpl; tauto|]. split; [intros t; reflexivity|]. split; [exact Hs|]. split; [exists 1; split; [vm_compute; auto|reflexivity]|]. vm_compute. repeat constructor.
  - split; [apply (ac_from_antichain [3])|]. intros t (x & [<-|[]] & Hx). exists 2. split; [left; auto|]. apply nat_tle in Hx. apply nat_tle. lia.
  - split; [apply HC; simpl; tauto|]. split; [intros t; reflexivity|]. split; [exact Hs|]. split; [exists 3; split; [vm_compute; auto|reflexivity]|]. vm_compute. repeat constructor.
Qed.
Example c18_run :
  option_map (fun '(w, _) => (live w, option_map (fun bx => (logical (bx_trace bx), physical (bx_trace bx))) (w_box w)))
    (w_run ov_batch_ops (world_new (with_effort 1)) c18_cmds) =
  Some ([{| ag_logical := [1]; ag_physical := [1] |}; {| ag_logical := [2]; ag_physical := [0] |}], Some ([1], [0])) /\
  option_map (fun '(w, _) => (w_box w, w_writer w)) (w_run ov_batch_ops (world_new (with_effort 1)) (c18_cmds ++ CListen 1 :: c18_more)) = Some (None, None).
Proof. vm_compute. auto. Qed.
Example c19_run :
  option_map (fun '(w, _) => map (option_map (fun '(_, l) =>
      let show := map (fun i => match i with IFrontier F => (Some F, []) | IBatch b _ => (None, ov_contents b) end) in (show (l_taken l), show (l_queue l)))) (w_listeners w))
    (w_run ov_batch_ops (world_new (with_effort 1)) (c18_cmds ++ CListen 1 :: c18_more)) =
  Some [Some ([(None, [((1, 10, 0), 1%Z); ((2, 10, 0), 1%Z)]); (None, [((1, 10, 1), (-1)%Z); ((1, 11, 1), 1%Z)]); (Some [2], []); (None, []); (Some [3], [])],
              [(None, [((2, 10, 3), 1%Z)]); (Some [4], []); (None, []); (Some [], [])])].
Proof. vm_compute. auto. Qed.
Example c19_import_run :
  option_map (fun '(w, _) => map (option_map (fun '(_, l) => (option_map (fun '(caps, out) => (caps, map fst out)) (import_core ov_batch_ops [0] (l_taken l ++ l_queue l)),
      option_map (fun '(caps, out) => (caps, map fst out)) (import_frontier_core ov_batch_ops [2] [0] (l_taken l ++ l_queue l))))) (w_listeners w))
    (w_run ov_batch_ops (world_new (with_effort 1)) (c18_cmds ++ CListen 1 :: c18_more)) =
  Some [Some (Some ([], [0; 0; 3]), Some ([], [0; 0]))].
Proof. vm_compute. auto. Qed.
