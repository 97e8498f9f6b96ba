(** C20: arranging a collection yields batches that partition its updates. *)
From Verif Require Import Proofs.ArrangeP Proofs.SpineInstP Proofs.SpineP Model.OrdNeuM Props.OrdNeuProps Base.Collections Base.Order.

(** Whatever has happened, every delivery allowed by timely is handled without panicking. *)
Theorem c20_arrange_never_fails : forall (B M D T R : Type) (OD : Ord D) (TT : Time T) (DR : Diff R)
  (ops : BatchOps B M T) (contents : B -> list (D * T * R)) (laws : BatchLaws ops contents) full m_merge m_extract m_len build
  (ml : MergerLaws m_merge m_extract), builds ops contents laws (ml_good _ _ ml) build ->
  forall e w, areaches ops full m_merge m_extract m_len build e w ->
  forall msgs rest F answer, may_deliver (aw_flight w) (aw_front w) msgs rest F ->
  exists st tr outs bs, a_activate ops full m_merge m_extract m_len build msgs F answer (aw_op w) (aw_trace w) = Some (st, tr, outs, bs).
Proof.
  intros B M D T R OD TT DR ops contents laws full m_merge m_extract m_len build ml HB e w HR msgs rest F answer HD.
  destruct (activate_ok ops contents laws full m_merge m_extract m_len build ml HB w msgs rest F answer (areaches_inv _ _ _ _ _ _ _ _ ml HB _ _ HR) HD) as (st & tr & outs & bs & E & _). eauto.
Qed.
Print Assumptions c20_arrange_never_fails.

(** The batches inserted in the trace have intervals that abut, are not empty, and lead from the minimum to
    the input frontier; each holds, consolidated, exactly the updates received in its interval.  Those sent
    are those inserted, in order, except that empty batches may be left out. *)
Theorem c20_arrange_partitions : forall (B M D T R : Type) (OD : Ord D) (TT : Time T) (DR : Diff R)
  (ops : BatchOps B M T) (contents : B -> list (D * T * R)) (laws : BatchLaws ops contents) full m_merge m_extract m_len build
  (ml : MergerLaws m_merge m_extract), builds ops contents laws (ml_good _ _ ml) build ->
  forall e w, areaches ops full m_merge m_extract m_len build e w ->
  let batches := map fst (aw_log w) in
  (exists up, tiles ops [tmin] batches up /\ same_future up (aw_front w)) /\
  Forall (fun b => ~ same_future (lower_of ops b) (upper_of ops b) /\ consolidated (A:=D*T) (contents b) /\
            forall d t, weight (A:=D*T) (contents b) (d, t) =
              if beyondb (lower_of ops b) t && negb (beyondb (upper_of ops b) t) then weight (A:=D*T) (aw_received w) (d, t) else dzero) batches /\
  (forall d t, weight (A:=D*T) (flat_map contents batches) (d, t) =
     if beyondb (aw_front w) t then dzero else weight (A:=D*T) (aw_received w) (d, t)) /\
  aw_out w = flat_map (fun x => match snd x with Some c => [(c, fst x)] | None => [] end) (aw_log w) /\
  Forall (fun x => snd x = None -> contents (fst x) = []) (aw_log w).
Proof.
  intros B M D T R OD TT DR ops contents laws full m_merge m_extract m_len build ml HB e w HR batches.
  pose proof (areaches_inv _ _ _ _ _ _ _ _ ml HB _ _ HR) as I. pose proof (ai_trace _ _ _ _ _ _ _ I) as IT. destruct (ai_writer _ _ _ _ _ _ _ I) as (up & Hw & Hup).
  pose proof (wi_tiles _ _ _ _ _ IT) as HT. unfold w_upper in HT. rewrite Hw in HT. pose proof (wi_proper _ _ _ _ _ IT) as HP. pose proof (ai_log _ _ _ _ _ _ _ I) as HL.
  split; [exists up; auto|split; [|split; [|split]]].
  - apply Forall_forall. intros b Hb. split; [apply (proj1 (Forall_forall _ _) HP b Hb)|]. apply in_map_iff in Hb as (x & <- & Hx). destruct (proj1 (Forall_forall _ _) HL x Hx) as (H1 & H2 & _). auto.
  - intros d t. destruct (log_weights ops contents laws _ _ _ d t _ HT HL HP) as [W _]. unfold batches. rewrite W, (beyondb_same _ _ t Hup).
    replace (beyondb [tmin] t) with true by (symmetry; apply beyondb_spec; exists tmin; split; [left; auto|apply tmin_le]). destruct (beyondb (aw_front w) t); auto.
  - apply (ai_out _ _ _ _ _ _ _ I).
  - eapply Forall_impl; [|exact HL]. intros x (_ & _ & H) E. rewrite E in H. exact H.
Qed.
Print Assumptions c20_arrange_partitions.

(** Each batch is sent at a time at or before its updates, in the batch's interval; and the operator holds
    capabilities for exactly what it retains: they are beyond the frontier, and every update received and
    not sent is at or beyond one of them. *)
Theorem c20_arrange_capabilities : forall (B M D T R : Type) (OD : Ord D) (TT : Time T) (DR : Diff R)
  (ops : BatchOps B M T) (contents : B -> list (D * T * R)) (laws : BatchLaws ops contents) full m_merge m_extract m_len build
  (ml : MergerLaws m_merge m_extract), builds ops contents laws (ml_good _ _ ml) build ->
  forall e w, areaches ops full m_merge m_extract m_len build e w ->
  Forall (fun m => beyond (lower_of ops (snd m)) (fst m) /\ ~ beyond (upper_of ops (snd m)) (fst m) /\
            Forall (fun u => tle (fst m) (time_of u) = true) (contents (snd m))) (aw_out w) /\
  Forall (beyond (aw_front w)) (as_caps (aw_op w)) /\
  (forall d t, beyond (aw_front w) t -> weight (A:=D*T) (aw_received w) (d, t) <> dzero -> beyond (as_caps (aw_op w)) t).
Proof.
  intros B M D T R OD TT DR ops contents laws full m_merge m_extract m_len build ml HB e w HR.
  pose proof (areaches_inv _ _ _ _ _ _ _ _ ml HB _ _ HR) as I. pose proof (ai_log _ _ _ _ _ _ _ I) as HL. destruct (ai_prev _ _ _ _ _ _ _ I) as [_ Hp]. pose proof (ai_recv _ _ _ _ _ _ _ I) as IR.
  split; [|split].
  - rewrite (ai_out _ _ _ _ _ _ _ I). apply Forall_forall. intros m Hm. apply in_flat_map in Hm as (x & Hx & Hm). destruct (proj1 (Forall_forall _ _) HL x Hx) as (_ & _ & H). destruct (snd x) as [c|]; [|destruct Hm].
    destruct Hm as [<-|[]]. exact H.
  - eapply Forall_impl; [|apply (ri_beyond _ _ _ _ _ _ IR)]. intros c Hc. apply Hp, Hc.
  - intros d t Hb Hn. apply (ri_cover _ _ _ _ _ _ IR d). rewrite (ri_held _ _ _ _ _ _ IR). apply Hp, beyondb_spec in Hb. rewrite Hb. exact Hn.
Qed.
Print Assumptions c20_arrange_capabilities.

(** What a handle reads from the trace at times within its reach and before the input frontier: the
    updates received, accumulated. *)
Theorem c20_arrange_reads : forall (B M D T R : Type) (OD : Ord D) (TT : Time T) (DR : Diff R)
  (ops : BatchOps B M T) (contents : B -> list (D * T * R)) (laws : BatchLaws ops contents) full m_merge m_extract m_len build
  (ml : MergerLaws m_merge m_extract), builds ops contents laws (ml_good _ _ ml) build ->
  forall e w, areaches ops full m_merge m_extract m_len build e w ->
  forall a, In a (live (aw_trace w)) -> exists bx, w_box (aw_trace w) = Some bx /\
  forall d t, beyond (ag_logical a) t -> ~ beyond (aw_front w) t ->
    acc (flat_map contents (map_batches (bx_trace bx))) d t = acc (aw_received w) d t.
Proof.
  intros B M D T R OD TT DR ops contents laws full m_merge m_extract m_len build ml HB e w HR a Ha.
  pose proof (areaches_inv _ _ _ _ _ _ _ _ ml HB _ _ HR) as I. pose proof (wi_box _ _ _ _ _ (ai_trace _ _ _ _ _ _ _ I)) as Hb.
  destruct (w_box (aw_trace w)) as [bx|]; [|rewrite Hb in Ha; destruct Ha]. destruct Hb as [[B1 B2 (n & HS)] _]. exists bx. split; auto. intros d t Ht Hn.
  rewrite (cov_same _ _ _ _ _ _ (Sinv_cov _ _ _ _ _ _ _ _ _ HS) d t).
  2:{ apply (si_logical _ _ _ _ _ _ _ _ _ HS), (holds_frontier _ _ B1 t). exists (ag_logical a). split; auto. apply in_map; auto. }
  destruct (c20_arrange_partitions _ _ _ _ _ _ _ _ ops contents laws full m_merge m_extract m_len build ml HB e w HR) as (_ & _ & W & _).
  set (h := map fst (aw_log w)) in *.
  assert (HW : same_weights (A:=D*T) (flat_map contents h) (filter (fun u => negb (beyondb (aw_front w) (time_of u))) (aw_received w))).
  { intros [d0 s]. rewrite W, (weight_filter (A:=D*T) (fun x => negb (beyondb (aw_front w) (snd x))) (aw_received w) (d0, s)). cbn [snd]. destruct (beyondb (aw_front w) s); auto. }
  rewrite (acc_same_weights _ _ d t HW). clear - Hn. induction (aw_received w) as [|[[d0 s] r] l IH]; cbn [filter time_of fst snd]; auto.
  destruct (beyondb (aw_front w) s) eqn:E; cbn [negb]; rewrite ?acc_cons, IH; auto.
  cbn [fst snd]. destruct (tle s t) eqn:El; [|rewrite andb_false_r; auto]. exfalso. apply Hn. apply beyondb_spec in E. apply (beyond_mono _ s); auto.
Qed.
Print Assumptions c20_arrange_reads.

(** ** Instances: vectors as chunks, and the ord_neu batches *)
Section Instances.
Context {D T R : Type} {OD : Ord D} {TT : Time T} {DR : Diff R}.
Definition vec_merger (cap : list (D * T * R) -> bool) (Hcap : cap [] = false) : MergerLaws (D:=D) (vm_merge cap) (vm_extract cap).
Proof.
  refine (Build_MergerLaws _ _ vm_good _ _ _ _ _).
  - split; [constructor|apply consolidated_nil].
  - intros c Hc Hn. split; [constructor; [exact Hn|constructor]|]. cbn [concat]. rewrite app_nil_r. exact Hc.
  - intros c [_ H]. exact H.
  - intros a b Ha Hb. destruct (vm_merge_ok cap Hcap a b Ha Hb) as (o & E & G & W). exists o. split; [exact E|split; [exact G|]]. intros x. rewrite W. apply merge2_weight.
  - intros m up Hm. destruct (vm_extract_ok cap Hcap m up Hm) as (f & s & k & E & Gs & Gk & Ef & Es & Ek). exists f, s, k.
    split; [exact E|split; [exact Gs|split; [exact Gk|split; [rewrite Ef; apply ac_from_antichain|split; [|split]]]]].
    + intros t. rewrite Ef. apply ac_from_beyond.
    + rewrite Es. apply same_weights_refl.
    + rewrite Ek. apply same_weights_refl.
Defined.
End Instances.
Lemma ov_builds {K V T R} {OK : Ord K} {OV : Ord V} {TT : Time T} {DR : Diff R} {OR : Ord R} cap Hcap :
  builds ov_batch_ops ov_contents ov_laws (ml_good _ _ (vec_merger (D:=K*V) (T:=T) (R:=R) cap Hcap)) ovb_seal.
Proof.
  intros chain d [_ Hc]. assert (Hb : ov_batch (ovb_seal chain d)) by (apply (ovB_built (concat chain)); auto). split; [exact Hb|].
  destruct (c10_val_batch_reads_back _ _ _ _ _ _ _ _ _ (concat chain) chain d Hc eq_refl) as (HR & _ & Hd). split; [apply ov_contents_reads; auto|exact Hd].
Qed.
Lemma ok_builds {K T R} {OK : Ord K} {TT : Time T} {DR : Diff R} {OR : Ord R} cap Hcap :
  builds ok_batch_ops ok_contents ok_laws (ml_good _ _ (vec_merger (D:=K*unit) (T:=T) (R:=R) cap Hcap)) okb_seal.
Proof.
  intros chain d [_ Hc]. assert (Hb : ok_batch (okb_seal chain d)) by (apply (okB_built (concat chain)); auto). split; [exact Hb|].
  destruct (c10_key_batch_reads_back _ _ _ _ _ _ _ (concat chain) chain d Hc eq_refl) as (HR & _ & Hd). split; [apply ok_contents_reads; auto|exact Hd].
Qed.

(** A run with partially ordered times: two capabilities are held, and the frontier passes both at once;
    two batches result, and what lies beyond the frontier is retained with a capability of its own. *)
Definition c20_cap (l : list (nat * nat * (nat * nat) * Z)) : bool := length l =? 3.
Definition c20_activate := a_activate (OD:=Ord_prod) (ov_batch_ops (K:=nat) (V:=nat) (T:=nat*nat) (R:=Z)) c20_cap (vm_merge c20_cap) (vm_extract c20_cap) vm_len ovb_seal.
Definition c20_msgs : list ((nat * nat) * list (nat * nat * (nat * nat) * Z)) :=
  [((0, 2), [((1, 1, (0, 2)), 1%Z); ((1, 1, (3, 3)), 1%Z); ((2, 2, (0, 2)), 1%Z); ((1, 1, (0, 2)), 1%Z)]);
   ((1, 0), [((2, 2, (1, 1)), 1%Z); ((2, 2, (1, 2)), (-1)%Z)])].
Definition c20_front : list (nat * nat) := [(3, 0); (2, 3)].
Example c20_run : exists st tr outs bs,
  c20_activate c20_msgs c20_front None a_start (world_new (with_effort 1)) = Some (st, tr, outs, bs) /\
  map (fun x => (fst x, ov_contents (snd x), ov_desc (snd x))) outs =
    [((0, 2), [((1, 1, (0, 2)), 2%Z); ((2, 2, (0, 2)), 1%Z)], {| d_lower := [(0, 0)]; d_upper := [(1, 0)]; d_since := [(0, 0)] |});
     ((1, 0), [((2, 2, (1, 1)), 1%Z); ((2, 2, (1, 2)), (-1)%Z)], {| d_lower := [(1, 0)]; d_upper := [(3, 0); (2, 3)]; d_since := [(0, 0)] |})] /\
  as_caps st = [(3, 3)] /\ as_prev st = c20_front.
Proof. eexists _, _, _, _. split; [vm_compute; reflexivity|]. vm_compute. auto. Qed.
(** and it is reachable *)
Example c20_reaches : forall e, exists w, areaches (ov_batch_ops (K:=nat) (V:=nat) (T:=nat*nat) (R:=Z)) c20_cap (vm_merge c20_cap) (vm_extract c20_cap) vm_len ovb_seal e w /\
  length (aw_out w) = 2 /\ aw_front w = c20_front.
Proof.
  intros e. set (w0 := {| aw_trace := world_new (with_effort e); aw_op := a_start; aw_flight := c20_msgs; aw_front := [tmin]; aw_received := []; aw_log := []; aw_out := [] |}
    : aworld (OrdValBatch nat nat (nat*nat) Z) (OrdValMerger nat nat (nat*nat) Z) (nat*nat) (nat*nat) Z).
  assert (H0 : areaches (ov_batch_ops (K:=nat) (V:=nat) (T:=nat*nat) (R:=Z)) c20_cap (vm_merge c20_cap) (vm_extract c20_cap) vm_len ovb_seal e w0).
  { eapply ar_step; [eapply ar_step; [apply ar_start|]|].
    - apply (aw_send _ _ _ _ _ _ _ _ [] _ _ _ _ (0, 2) (snd (nth 0 c20_msgs ((0, 0), [])))).
      + exists tmin. split; [left; auto|apply tmin_le].
      + repeat constructor.
    - apply (aw_send _ _ _ _ _ _ _ _ [((0, 2), snd (nth 0 c20_msgs ((0, 0), [])))] _ _ _ _ (1, 0) (snd (nth 1 c20_msgs ((0, 0), [])))).
      + exists tmin. split; [left; auto|apply tmin_le].
      + repeat constructor. }
  assert (HD : may_deliver (aw_flight w0) (aw_front w0) c20_msgs [] c20_front).
  { split; [cbn [aw_flight w0]; rewrite app_nil_r; reflexivity|]. split; [exact (ac_from_antichain (T:=nat*nat) [(3, 0); (2, 3)])|]. split; [|constructor].
    intros t _. exists tmin. split; [left; auto|apply tmin_le]. }
  destruct (c20_arrange_never_fails _ _ _ _ _ _ _ _ _ _ ov_laws c20_cap _ _ vm_len _ (vec_merger c20_cap eq_refl) (ov_builds c20_cap eq_refl) e w0 H0 _ _ _ None HD) as (st & tr & outs & bs & E).
  eexists. split; [eapply ar_step; [exact H0|]; eapply aw_activate; [exact HD|exact E]|].
  cbn [aw_out aw_front app aw_op aw_trace w0] in *. split; [|reflexivity].
  unfold world_new, with_effort in E. vm_compute in E. inversion E; subst. reflexivity.
Qed.
