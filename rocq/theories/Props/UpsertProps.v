(** C28: an arrangement made from upserts holds, for each key, its latest value. *)
From Verif Require Import Proofs.UpsertP Proofs.SpineInstP Proofs.SpineP Proofs.ReadableInstP Model.OrdNeuM Props.OrdNeuProps Props.ArrangeProps Base.Collections Base.Order.

(** The operator never panics: not for the frontier, the trace, the counts read from it, nor its
    capabilities, whatever is delivered and whatever other readers of the trace do. *)
Theorem c28_upsert_never_fails : forall (B M C K V T : Type) (OK : Ord K) (OV : Ord V) (TT : Time T) (TO : TotalTime T)
  (ops : BatchOps B M T) (contents : B -> list (K * V * T * Z)) (laws : BatchLaws (D:=K*V) ops contents) (cops : CursorOps B C K V T Z) new build,
  readable ops contents laws cops new -> builds_consolidated ops contents laws build ->
  (forall e, exists w, u_trace ops e = Some w) /\
  forall e w, ureaches ops cops new build e w ->
  forall msgs rest F answer, u_may_deliver (uw_flight w) (uw_front w) msgs rest F ->
  exists st tr outs bs, u_activate ops cops new build msgs F answer (uw_op w) (uw_trace w) = Some (st, tr, outs, bs).
Proof.
  intros B M C K V T OK OV TT TO ops contents laws cops new build HR HB. split; [apply (trace_starts ops contents laws)|]. intros e w Hw msgs rest F answer HD.
  destruct (activate_ok ops contents laws cops new HR build HB w msgs rest F answer (ureaches_inv ops contents laws cops new HR build HB e w Hw) HD) as (st & tr & outs & bs & E & _). eauto.
Qed.
Print Assumptions c28_upsert_never_fails.

(** At every completed time, the updates in the batches inserted accumulate to the key's value as of that
    time, once; and every key has one such value or none. *)
Theorem c28_upsert_latest_value : forall (B M C K V T : Type) (OK : Ord K) (OV : Ord V) (TT : Time T) (TO : TotalTime T)
  (ops : BatchOps B M T) (contents : B -> list (K * V * T * Z)) (laws : BatchLaws (D:=K*V) ops contents) (cops : CursorOps B C K V T Z) new build,
  readable ops contents laws cops new -> builds_consolidated ops contents laws build ->
  forall e w, ureaches ops cops new build e w ->
  forall k t, ~ beyond (uw_front w) t ->
  (exists o, value_as_of (uw_received w) k t o) /\
  forall o, value_as_of (uw_received w) k t o ->
  forall v, acc (D:=K*V) (flat_map contents (map fst (uw_log w))) (k, v) t = match o with Some v' => if eqb v' v then 1%Z else 0%Z | None => 0%Z end.
Proof.
  intros B M C K V T OK OV TT TO ops contents laws cops new build HR HB e w Hw k t Ht. split; [exists (val_of (uw_received w) k t); apply val_of_spec|]. intros o Ho v.
  pose proof (ureaches_inv ops contents laws cops new HR build HB e w Hw) as I. rewrite (ui_val _ _ _ _ I).
  assert (E : val_of (done (uw_front w) (uw_received w)) k t = o); [|rewrite E; reflexivity].
  apply (value_unique (done (uw_front w) (uw_received w)) k t); [apply val_of_spec|]. eapply value_same; [|exact Ho]. intros o' s Hs. unfold done. rewrite filter_In. cbn [snd].
  assert (Hb : beyondb (uw_front w) s = false) by (apply beyondb_false; intros H; apply Ht; eapply beyond_mono; eauto). rewrite Hb. cbn [negb]. tauto.
Qed.
Print Assumptions c28_upsert_latest_value.

(** The same holds of what any handle reads from the trace, at times within its reach. *)
Theorem c28_upsert_reads : forall (B M C K V T : Type) (OK : Ord K) (OV : Ord V) (TT : Time T) (TO : TotalTime T)
  (ops : BatchOps B M T) (contents : B -> list (K * V * T * Z)) (laws : BatchLaws (D:=K*V) ops contents) (cops : CursorOps B C K V T Z) new build,
  readable ops contents laws cops new -> builds_consolidated ops contents laws build ->
  forall e w, ureaches ops cops new build e w ->
  forall a, In a (live (uw_trace w)) -> exists bx, w_box (uw_trace w) = Some bx /\
  forall k t, beyond (ag_logical a) t -> ~ beyond (uw_front w) t ->
  forall o, value_as_of (uw_received w) k t o ->
  forall v, acc (D:=K*V) (flat_map contents (map_batches (bx_trace bx))) (k, v) t = match o with Some v' => if eqb v' v then 1%Z else 0%Z | None => 0%Z end.
Proof.
  intros B M C K V T OK OV TT TO ops contents laws cops new build HR HB e w Hw a Ha.
  pose proof (ureaches_inv ops contents laws cops new HR build HB e w Hw) as I. pose proof (wi_box _ _ _ _ _ (ui_trace _ _ _ _ I)) as Hb.
  destruct (w_box (uw_trace w)) as [bx|]; [|rewrite Hb in Ha; destruct Ha]. destruct Hb as [[B1 B2 (n & HS)] _]. exists bx. split; auto. intros k t Ht Hn o Ho v.
  rewrite (cov_same _ _ _ _ _ _ (Sinv_cov _ _ _ _ _ _ _ _ _ HS) (k, v) t).
  2:{ apply (si_logical _ _ _ _ _ _ _ _ _ HS), (holds_frontier _ _ B1 t). exists (ag_logical a). split; auto. apply in_map; auto. }
  apply (c28_upsert_latest_value _ _ _ _ _ _ _ _ _ _ ops contents laws cops new build HR HB e w Hw k t Hn). exact Ho.
Qed.
Print Assumptions c28_upsert_reads.

(** The batches inserted abut, lead from the minimum to the input frontier, and hold updates of their
    intervals; those sent are those inserted, empty ones aside, each at a time at or before its updates;
    and the operator holds capabilities for the upserts it retains. *)
Theorem c28_upsert_batches : forall (B M C K V T : Type) (OK : Ord K) (OV : Ord V) (TT : Time T) (TO : TotalTime T)
  (ops : BatchOps B M T) (contents : B -> list (K * V * T * Z)) (laws : BatchLaws (D:=K*V) ops contents) (cops : CursorOps B C K V T Z) new build,
  readable ops contents laws cops new -> builds_consolidated ops contents laws build ->
  forall e w, ureaches ops cops new build e w ->
  (exists up, tiles ops [tmin] (map fst (uw_log w)) up /\ same_future up (uw_front w)) /\
  Forall (fun x => Forall (fun u => beyond (lower_of ops (fst x)) (time_of u) /\ ~ beyond (upper_of ops (fst x)) (time_of u)) (contents (fst x)) /\
            (snd x = None -> contents (fst x) = [])) (uw_log w) /\
  uw_out w = flat_map (fun x => match snd x with Some c => [(c, fst x)] | None => [] end) (uw_log w) /\
  Forall (fun m => beyond (lower_of ops (snd m)) (fst m) /\ Forall (fun u => tle (fst m) (time_of u) = true) (contents (snd m))) (uw_out w) /\
  Forall (beyond (uw_front w)) (us_caps (uw_op w)) /\
  (forall k o t, In (k, o, t) (uw_received w) -> beyond (uw_front w) t -> beyond (us_caps (uw_op w)) t).
Proof.
  intros B M C K V T OK OV TT TO ops contents laws cops new build HR HB e w Hw. pose proof (ureaches_inv ops contents laws cops new HR build HB e w Hw) as I.
  pose proof (wi_tiles _ _ _ _ _ (ui_trace _ _ _ _ I)) as HT. destruct (ui_writer _ _ _ _ I) as (up & Ew & Hup). unfold w_upper in HT. rewrite Ew in HT. pose proof (ui_log _ _ _ _ I) as HL. pose proof (ui_held _ _ _ _ I) as HH.
  split; [exists up; auto|split; [|split; [apply (ui_out _ _ _ _ I)|split; [|split; [apply HH|]]]]].
  - eapply Forall_impl; [|exact HL]. intros x [H1 H2]. split; auto. intros E. rewrite E in H2. auto.
  - rewrite (ui_out _ _ _ _ I). apply Forall_forall. intros m Hm. apply in_flat_map in Hm as (x & Hx & Hm). destruct (proj1 (Forall_forall _ _) HL x Hx) as [_ H]. destruct (snd x) as [c|]; [|destruct Hm]. destruct Hm as [<-|[]]. cbn [fst snd]. tauto.
  - intros k o t Hi Hb. assert (Hq : In (t, k, o) (us_queue (uw_op w))).
    { eapply Permutation_in; [symmetry; apply (he_queue _ _ _ HH)|]. apply in_map_iff. exists (k, o, t). split; auto. apply filter_In. split; auto. apply beyondb_spec. auto. }
    apply (proj1 (Forall_forall _ _) (he_cover _ _ _ HH) _ Hq).
Qed.
Print Assumptions c28_upsert_batches.

(** ** The hypotheses are met *)
Lemma ov_builds_consolidated {K V T} {OK : Ord K} {OV : Ord V} {TT : Time T} : builds_consolidated (K:=K) (V:=V) (T:=T) (ov_batch_ops (R:=Z)) ov_contents ov_laws ovb_seal.
Proof.
  intros chain d Hc. assert (Hb : ov_batch (ovb_seal chain d)) by (apply (ovB_built (concat chain)); auto). split; [exact Hb|].
  destruct (c10_val_batch_reads_back _ _ _ _ _ _ _ _ _ (concat chain) chain d Hc eq_refl) as (HR & _ & Hd). split; [apply ov_contents_reads; auto|exact Hd].
Qed.
(** Two activations.  Key 1 gets the value 5 at time 0, and at time 2 the values 3 and 7, of which 7 is
    kept, and a deletion at time 4; key 2 gets the value 9 at time 1.  The deletion waits for the second
    activation, which reads the 7 to be removed from the trace. *)
Definition c28_activate := u_activate (ov_batch_ops (K:=nat) (V:=nat) (T:=nat) (R:=Z)) ov_ops ovc_new ovb_seal.
Definition c28_us : list (nat * option nat * nat) := [(1, Some 5, 0); (1, Some 3, 2); (1, None, 4); (2, Some 9, 1); (1, Some 7, 2)].
Definition c28_ops := ov_batch_ops (K:=nat) (V:=nat) (T:=nat) (R:=Z).
Example c28_run : exists w st1 w1 o1 l1 st2 w2 o2 l2, u_trace c28_ops 1 = Some w /\
  c28_activate [(0, c28_us)] [3] None u_start w = Some (st1, w1, o1, l1) /\ c28_activate [] [] (Some 1) st1 w1 = Some (st2, w2, o2, l2) /\
  map (fun x => (fst x, ov_contents (snd x))) o1 = [(0, [((1, 5, 0), 1%Z); ((1, 5, 2), (-1)%Z); ((1, 7, 2), 1%Z); ((2, 9, 1), 1%Z)])] /\
  us_caps st1 = [4] /\ map (fun x => (fst x, ov_contents (snd x))) o2 = [(4, [((1, 7, 4), (-1)%Z)])] /\ us_caps st2 = [].
Proof. eexists _, _, _, _, _, _, _, _, _. split; [vm_compute; reflexivity|]. split; [vm_compute; reflexivity|]. split; [vm_compute; reflexivity|]. vm_compute. auto. Qed.
Example c28_reaches : forall e, exists w, ureaches c28_ops ov_ops ovc_new ovb_seal e w /\ uw_front w = [3] /\ length (uw_out w) = 1 /\ value_as_of (uw_received w) 1 2 (Some 7).
Proof.
  intros e. destruct (trace_starts c28_ops ov_contents ov_laws e) as (w0 & E0).
  set (u0 := {| uw_trace := w0; uw_op := u_start; uw_flight := [(0, c28_us)]; uw_front := [tmin]; uw_received := []; uw_log := []; uw_out := [] |} : uworld (OrdValBatch nat nat nat Z) (OrdValMerger nat nat nat Z) nat nat nat).
  assert (H0 : ureaches c28_ops ov_ops ovc_new ovb_seal e u0).
  { eapply ur_step; [apply (ur_start _ _ _ _ _ _ E0)|]. apply (uw_send _ _ _ _ _ _ [] _ _ _ _ 0 c28_us); [exists 0; split; [left; auto|reflexivity]|repeat constructor]. }
  assert (HD : u_may_deliver (uw_flight u0) (uw_front u0) [(0, c28_us)] [] [3]).
  { split; [reflexivity|]. split; [exact (ac_from_antichain (T:=nat) [3])|]. split; [|constructor]. intros t _. exists tmin. split; [left; auto|apply tmin_le]. }
  destruct (proj2 (c28_upsert_never_fails _ _ _ _ _ _ _ _ _ _ c28_ops ov_contents ov_laws ov_ops ovc_new ovb_seal ov_readable ov_builds_consolidated) e u0 H0 _ _ _ None HD) as (st & tr & outs & bs & E).
  eexists. split; [eapply ur_step; [exact H0|]; eapply uw_activate; [exact HD|exact E]|]. cbn [uw_front uw_out uw_received app u0 uw_op uw_trace] in *. split; [auto|split].
  - unfold u_trace, world_new, with_effort in E0. vm_compute in E0. inversion E0; subst w0. vm_compute in E. inversion E; subst. reflexivity.
  - left. exists 2. split; [right; right; right; right; left; reflexivity|]. split; [reflexivity|]. intros o' s' Hi Hle.
    cbn in Hi. repeat destruct Hi as [Hi|Hi]; try contradiction; inversion Hi; subst; try discriminate; try (left; reflexivity); right; split; auto; cbv; discriminate.
Qed.
