(** C31 (arranged collections entering a scope) and C32 (the window between two frontiers). *)
From Verif Require Import Base.Collections Spec.LinearSpec Spec.ReadableSpec Model.WrappersM Proofs.WrappersP Proofs.BatchP Proofs.SpineP Proofs.ReadableP Proofs.TrieP Proofs.ReadableInstP
  Model.OrdNeuM Model.SpineM Props.SpineProps Props.LinearProps.

(** ** C31: a wrapped cursor shows the same keys and values, and under them the times of the inner scope *)
Section C31.
Context {K V T T2 R : Type} {OK : Ord K} {OV : Ord V} {TT : Time T} {TT2 : Time T2} {DR : Diff R}.

Theorem c31_enter_cursor : forall (St C : Type) (cops : CursorOps St C K V T R) (rf : RefinesOps T T2) st c0 (tr : trie K V T R),
  refines rf -> presents cops st c0 tr ->
  exists tr', presents (enter_ops cops rf) st c0 tr' /\
    flat tr' = map (fun u => (fst (fst u), to_inner rf (snd (fst u)), snd u)) (flat tr) /\
    forall d u, acc (flat tr') d u = acc (flat tr) d (to_outer rf u).
Proof.
  intros St C cops rf st c0 tr HR HP. set (g := fun (_ : K) (_ : V) t => Some (to_inner rf t)).
  exists (retrie (fun k v ts => flat_map (fun u => match g k v (fst u) with Some x => [(x, snd u)] | None => [] end) ts) tr).
  split; [|split].
  - apply delegate_presents; auto. intros c k v ts _ _ E. unfold enter_map_times. rewrite E. unfold g. rewrite map_flat. reflexivity.
  - rewrite (flat_retrie g). unfold g. rewrite map_flat. auto.
  - intros d u. rewrite (flat_retrie g). destruct HR as (HG & _).
    exact (retime (fun d t => g (fst d) (snd d) t) (flat tr) d u (Some (to_outer rf u)) (fun x _ _ => HG _ _)).
Qed.
Theorem c31_enter_at_cursor : forall (St C : Type) (cops : CursorOps St C K V T R) (logic : K -> V -> T -> T2) st c0 (tr : trie K V T R),
  presents cops st c0 tr ->
  exists tr', presents (enter_at_ops cops logic) st c0 tr' /\
    flat tr' = map (fun u => (fst (fst u), logic (fst (fst (fst u))) (snd (fst (fst u))) (snd (fst u)), snd u)) (flat tr).
Proof.
  intros St C cops logic st c0 tr HP. set (g := fun (k : K) (v : V) t => Some (logic k v t)).
  exists (retrie (fun k v ts => flat_map (fun u => match g k v (fst u) with Some x => [(x, snd u)] | None => [] end) ts) tr).
  split.
  - apply delegate_presents; auto. intros c k v ts Ek Ev E. unfold enter_at_map_times. rewrite Ek, Ev, E. unfold g. rewrite map_flat. reflexivity.
  - rewrite (flat_retrie g). unfold g. rewrite map_flat. auto.
Qed.

(** The description of a wrapped batch bounds the inner times exactly as that of the batch bounds the outer ones. *)
Theorem c31_enter_description : forall (rf : RefinesOps T T2) d, refines rf -> d_lower d <> [] ->
  exists d', enter_description rf d = Some d' /\ forall u,
    (beyond (d_lower d') u <-> beyond (d_lower d) (to_outer rf u)) /\ (beyond (d_upper d') u <-> beyond (d_upper d) (to_outer rf u)) /\
    (beyond (d_since d') u <-> beyond (d_since d) (to_outer rf u)).
Proof.
  intros rf d HR Hl. unfold enter_description, desc_new.
  assert (Hne : ac_from (map (to_inner rf) (d_lower d)) <> []).
  { intros E. destruct (d_lower d) as [|x l]; [contradiction|]. destruct (proj2 (ac_from_beyond (map (to_inner rf) (x :: l)) (to_inner rf x))) as (f & Hf & _).
    - exists (to_inner rf x). split; [left; auto|apply tle_refl].
    - rewrite E in Hf. destruct Hf. }
  destruct (ac_from (map (to_inner rf) (d_lower d))) as [|y ys] eqn:El; [contradiction|]. rewrite <- El in *.
  eexists. split; [rewrite El; reflexivity|]. rewrite <- El. intros u. cbn [d_lower d_upper d_since]. rewrite !ac_from_beyond, !(beyond_inner rf HR). tauto.
Qed.

(** Compaction: what the wrapper asks of the trace, and what it reports, protect all accumulations that
    users of the wrapper can ask for. *)
Theorem c31_enter_compaction : forall (rf : RefinesOps T T2), refines rf ->
  (forall F (c c' : list (K * V * T * R)), same_beyond (D:=K*V) (enter_in rf F) c c' ->
     let entered := map (fun u : K * V * T * R => (fst (fst u), to_inner rf (snd (fst u)), snd u)) in
     same_beyond (D:=K*V) F (entered c) (entered c')) /\
  (forall F u, beyond (enter_out rf F) u <-> beyond F (to_outer rf u)) /\
  (forall F, same_future (enter_in rf (enter_out rf F)) F).
Proof.
  intros rf HR. split; [|split].
  - intros F c c' H entered d u Hu. assert (E : forall x, acc (entered x) d u = acc x d (to_outer rf u)).
    { intros x. unfold entered. rewrite map_flat. destruct HR as (HG & _).
      exact (retime (D:=K*V) (fun _ t => Some (to_inner rf t)) x d u (Some (to_outer rf u)) (fun y _ _ => HG _ _)). }
    rewrite !E. apply H. unfold enter_in. apply ac_from_beyond. apply (beyond_outer rf HR). auto.
  - intros F u. unfold enter_out. rewrite ac_from_beyond. apply (beyond_inner rf HR).
  - intros F t. unfold enter_in, enter_out. rewrite ac_from_beyond.
    assert (X : forall x, In x (ac_from (map (to_inner rf) F)) -> exists f, In f F /\ x = to_inner rf f).
    { intros x Hx. unfold ac_from in Hx. apply ac_extend_incl in Hx as [[]|Hx]. apply in_map_iff in Hx as (f & <- & Hf). eauto. }
    destruct HR as (HG & HI & HM). split.
    + intros (y & Hy & Hle). apply in_map_iff in Hy as (x & <- & Hx). destruct (X x Hx) as (f & Hf & ->). rewrite HI in Hle. exists f. auto.
    + intros Ht. assert (Hb : beyond (ac_from (map (to_inner rf) F)) (to_inner rf t)).
      { apply ac_from_beyond. destruct Ht as (f & Hf & Hle). exists (to_inner rf f). split; [apply in_map; auto|]. rewrite HG, HI. auto. }
      destruct Hb as (x & Hx & Hle). exists (to_outer rf x). split; [apply in_map; auto|]. rewrite <- (HI t). apply HM. auto.
Qed.
(** For [enter_at], the user's [prior] must lie under the residual of [logic]: the last outer time that
    [logic] moves to at or before the given one. *)
Theorem c31_enter_at_compaction : forall (logic : K -> V -> T -> T2) (prior : T2 -> T) (res : K -> V -> T2 -> T),
  (forall k v t u, tle (logic k v t) u = tle t (res k v u)) -> (forall k v u u', tle u u' = true -> tle (prior u) (res k v u') = true) ->
  forall F (c c' : list (K * V * T * R)), same_beyond (D:=K*V) (enter_at_in prior F) c c' ->
     let entered := map (fun u : K * V * T * R => (fst (fst u), logic (fst (fst (fst u))) (snd (fst (fst u))) (snd (fst u)), snd u)) in
     same_beyond (D:=K*V) F (entered c) (entered c') /\ forall k v u, acc (D:=K*V) (entered c) (k, v) u = acc (D:=K*V) c (k, v) (res k v u).
Proof.
  intros logic prior res HG HP F c c' H entered.
  assert (E : forall x k v u, acc (D:=K*V) (entered x) (k, v) u = acc (D:=K*V) x (k, v) (res k v u)).
  { intros x k v u. unfold entered. rewrite map_flat.
    exact (retime (D:=K*V) (fun d t => Some (logic (fst d) (snd d) t)) x (k, v) u (Some (res k v u)) (fun y _ _ => HG _ _ _ _)). }
  split; auto. intros [k v] u Hu. rewrite !E. apply H. unfold enter_at_in. apply ac_from_beyond. destruct Hu as (f & Hf & Hle).
  exists (prior f). split; [apply in_map; auto|]. apply HP. auto.
Qed.
End C31.
Print Assumptions c31_enter_cursor. Print Assumptions c31_enter_at_cursor. Print Assumptions c31_enter_description.
Print Assumptions c31_enter_compaction. Print Assumptions c31_enter_at_compaction.

(** A whole trace: after any history whose logical compaction frontier is what the wrapper was told
    ([F], an inner frontier), the wrapped batches together show, at every inner time beyond [F], the
    accumulation of all inserted updates at its outer part. *)
Theorem c31_entered_trace : forall (B M C K V T T2 R : Type) (OK : Ord K) (OV : Ord V) (TT : Time T) (TT2 : Time T2) (DR : Diff R)
  (bops : BatchOps B M T) (contents : B -> list (K * V * T * R)) (laws : BatchLaws (D:=K*V) bops contents) (cops : CursorOps B C K V T R) new
  (rf : RefinesOps T T2) e l h up F P,
  readable bops contents laws cops new -> refines rf -> s_history bops contents laws l h up (enter_in rf F) P ->
  exists s trs, s_run bops (with_effort e) l = Some s /\
    Forall2 (fun b tr => presents (enter_ops cops rf) b new tr) (map_batches s) trs /\
    forall d u, beyond F u -> acc (flat_map flat trs) d u = acc (flat_map contents h) d (to_outer rf u).
Proof.
  intros B M C K V T T2 R OK OV TT TT2 DR bops contents laws cops new rf e l h up F P HRd HR H.
  destruct (history_runs bops contents laws e _ _ _ _ _ H) as (s & E & HS). exists s.
  pose proof (cov_ok _ _ _ _ _ _ (Sinv_cov _ _ _ _ _ _ _ _ _ HS)) as HO.
  assert (HA : same_beyond (D:=K*V) (enter_in rf F) (flat_map contents (map_batches s)) (flat_map contents h)).
  { eapply same_beyond_mono; [|apply (cov_same _ _ _ _ _ _ (Sinv_cov _ _ _ _ _ _ _ _ _ HS))]. apply HS. }
  assert (X : exists trs, Forall2 (fun b tr => presents (enter_ops cops rf) b new tr) (map_batches s) trs /\
    forall d u, acc (flat_map flat trs) d u = acc (flat_map contents (map_batches s)) d (to_outer rf u)).
  { clear - HO HRd HR. induction HO as [|b bs Hb _ (trs & P1 & P2)]; [exists []; split; auto|].
    destruct (HRd b Hb) as [[Hp _] _]. destruct (c31_enter_cursor _ _ cops rf b new _ HR Hp) as (tr & Q1 & _ & Q2).
    exists (tr :: trs). split; auto. intros d u. cbn [flat_map]. rewrite !acc_app, P2, Q2, flat_trie_of. auto. }
  destruct X as (trs & P1 & P2). exists trs. split; auto. split; auto.
  intros d u Hu. rewrite P2. apply HA. unfold enter_in. apply ac_from_beyond. apply (beyond_outer rf HR). auto.
Qed.
Print Assumptions c31_entered_trace.

(** ** C32 *)
Section C32.
Context {K V T R : Type} {OK : Ord K} {OV : Ord V} {TT : Time T} {DR : Diff R}.
Notation updates := (list (K * V * T * R)).

(** The window on a collection: times advanced to [since]; none at or beyond [until]. *)
Definition window (since until : list T) (c : updates) : updates :=
  flat_map (fun u => let t := advance_by (snd (fst u)) since in if ac_less_equal until t then [] else [(fst (fst u), t, snd u)]) c.

Lemma window_acc since until (c : updates) d t : beyond since t -> ~ beyond until t -> acc (window since until c) d t = acc c d t.
Proof.
  intros Hs Hu. set (g := fun (_ : K * V) x => let t := advance_by x since in if ac_less_equal until t then None else Some t).
  assert (E : window since until c = flat_map (fun u => match g (fst (fst u)) (snd (fst u)) with Some x => [(fst (fst u), x, snd u)] | None => [] end) c).
  { unfold window, g. apply flat_map_ext. intros u. cbn zeta. destruct (ac_less_equal until (advance_by (snd (fst u)) since)); auto. }
  rewrite E. apply (retime g c d t (Some t)). intros u _ _. unfold g. cbn zeta.
  destruct (ac_less_equal until (advance_by (snd (fst u)) since)) eqn:El.
  - destruct (tle (snd (fst u)) t) eqn:Et; auto. exfalso. apply Hu. apply ac_less_equal_spec in El.
    eapply beyond_mono; [|exact El]. rewrite advance_by_sound; auto.
  - apply advance_by_sound. auto.
Qed.

Theorem c32_cursor : forall (St C : Type) (cops : CursorOps St C K V T R) since until st c0 (tr : trie K V T R), presents cops st c0 tr ->
  exists tr', presents (frontier_ops cops since until) st c0 tr' /\ flat tr' = window since until (flat tr).
Proof.
  intros St C cops since until st c0 tr HP. set (g := fun (_ : K) (_ : V) x => let t := advance_by x since in if ac_less_equal until t then None else Some t).
  exists (retrie (fun k v ts => flat_map (fun u => match g k v (fst u) with Some x => [(x, snd u)] | None => [] end) ts) tr). split.
  - apply delegate_presents; auto. intros c k v ts _ _ E. unfold frontier_map_times. rewrite E. f_equal. apply flat_map_ext. intros u.
    unfold g. cbn zeta. destruct (ac_less_equal until (advance_by (fst u) since)); auto.
  - rewrite (flat_retrie g). unfold window, g. apply flat_map_ext. intros u. cbn zeta. destruct (ac_less_equal _ _); auto.
Qed.
(** The window does not depend on how far the collection was compacted, up to [since]. *)
Theorem c32_deterministic : forall since until F (c : updates), since <> [] -> (forall t, beyond since t -> beyond F t) ->
  window since until (map (adv_time (D:=K*V) F) c) = window since until c.
Proof.
  intros since until F c Hne HF. unfold window. induction c as [|u c IH]; auto. cbn [map flat_map]. rewrite IH. cbn [fst snd adv_time].
  replace (advance_by (advance_by (snd (fst u)) F) since) with (advance_by (snd (fst u)) since); auto.
  apply advance_by_canonical; auto. intros t Ht. rewrite advance_by_sound; auto.
Qed.
End C32.
Print Assumptions c32_cursor. Print Assumptions c32_deterministic.

(** A whole trace: after any history that compacts no further than [since], the wrapped batches show only
    times that are advanced to [since] (at or beyond it, if it has one element), none beyond [until], and at each time in the window the accumulation
    of all inserted updates. *)
Theorem c32_window : forall (B M C K V T R : Type) (OK : Ord K) (OV : Ord V) (TT : Time T) (DR : Diff R)
  (bops : BatchOps B M T) (contents : B -> list (K * V * T * R)) (laws : BatchLaws (D:=K*V) bops contents) (cops : CursorOps B C K V T R) new
  since until e l h up L P,
  readable bops contents laws cops new -> s_history bops contents laws l h up L P -> (forall t, beyond since t -> beyond L t) ->
  exists s trs, s_run bops (with_effort e) l = Some s /\
    Forall2 (fun b tr => presents (frontier_ops cops since until) b new tr) (map_batches s) trs /\
    (forall u, In u (flat_map flat trs) -> advance_by (snd (fst u)) since = snd (fst u) /\ (forall f, since = [f] -> tle f (snd (fst u)) = true) /\ ~ beyond until (snd (fst u))) /\
    (forall d t, beyond since t -> ~ beyond until t -> acc (flat_map flat trs) d t = acc (flat_map contents h) d t).
Proof.
  intros B M C K V T R OK OV TT DR bops contents laws cops new since until e l h up L P HRd H HL.
  destruct (history_runs bops contents laws e _ _ _ _ _ H) as (s & E & HS). exists s.
  pose proof (cov_ok _ _ _ _ _ _ (Sinv_cov _ _ _ _ _ _ _ _ _ HS)) as HO.
  assert (HA : same_beyond (D:=K*V) L (flat_map contents (map_batches s)) (flat_map contents h)).
  { eapply same_beyond_mono; [|apply (cov_same _ _ _ _ _ _ (Sinv_cov _ _ _ _ _ _ _ _ _ HS))]. apply HS. }
  assert (X : exists trs, Forall2 (fun b tr => presents (frontier_ops cops since until) b new tr) (map_batches s) trs /\
    flat_map flat trs = window since until (flat_map contents (map_batches s))).
  { clear - HO HRd. induction HO as [|b bs Hb _ (trs & P1 & P2)]; [exists []; split; auto|].
    destruct (HRd b Hb) as [[Hp _] _]. destruct (c32_cursor _ _ cops since until b new _ Hp) as (tr & Q1 & Q2).
    exists (tr :: trs). split; auto. cbn [flat_map]. unfold window in *. rewrite flat_map_app, P2, Q2, flat_trie_of. auto. }
  destruct X as (trs & P1 & P2). exists trs. split; auto. split; auto. rewrite P2. split.
  - intros u Hu. unfold window in Hu. apply in_flat_map in Hu as (u0 & _ & Hu). cbn zeta in Hu.
    destruct (ac_less_equal until (advance_by (snd (fst u0)) since)) eqn:El; [destruct Hu|]. destruct Hu as [<-|[]]. cbn [fst snd]. split; [|split].
    + apply advance_by_idem.
    + intros f ->. apply join_ub_r.
    + apply ac_less_equal_false. auto.
  - intros d t Hs Hu. rewrite window_acc by auto. apply HA. auto.
Qed.
Print Assumptions c32_window.

(** With several elements in [since], an advanced time need not be at or beyond any of them. *)
Theorem c32_times_beyond_since_refuted :
  exists (since : list (nat * nat)) (c : list (nat * nat * (nat * nat) * Z)), antichain since /\ since <> [] /\
    exists u, In u (window since [] c) /\ ~ beyond since (snd (fst u)).
Proof.
  exists [(0, 1); (1, 0)], [(7, 8, (0, 0), 1%Z)]. split; [|split; [discriminate|]].
  - constructor; [|constructor; [intros y []|constructor]]. intros y [<-|[]]. split; reflexivity.
  - exists (7, 8, (0, 0), 1%Z). split; [left; reflexivity|]. intros (f & [<-|[<-|[]]] & H); discriminate.
Qed.
Print Assumptions c32_times_beyond_since_refuted.

(** The wrapper passes compaction on to the trace unchanged (frontier.rs:44).  If its user lets it compact
    past [until], accumulations at later times change: updates that were inside the window are advanced out
    of it.  So beyond [until] the wrapped trace does not keep the promise of [set_logical_compaction]. *)
Theorem c32_compaction_past_until_refuted :
  exists (since until F : list nat) (c : list (nat * nat * nat * Z)), 
    same_beyond (D:=nat*nat) (frontier_in F) c (map (adv_time (D:=nat*nat) F) c) /\
    ~ same_beyond (D:=nat*nat) F (window since until c) (window since until (map (adv_time (D:=nat*nat) F) c)).
Proof.
  exists [0], [5], [7], [(1, 10, 2, 1%Z)]. split.
  - intros d t Ht. symmetry. apply acc_adv. auto.
  - intros H. specialize (H (1, 10) 8). assert (Hb : beyond [7] 8) by (exists 7; split; [left; auto|reflexivity]).
    specialize (H Hb). vm_compute in H. discriminate.
Qed.
Print Assumptions c32_compaction_past_until_refuted.

(** The history of C14 (compacted to 3, batches of ord_neu.rs), seen between 3 and 4 and in a loop. *)
Example c32_run : let w := fun (us : list (nat * nat * nat * Z)) => window [3] [4] us in
  readable (K:=nat) (V:=nat) (T:=nat) (R:=Z) ov_batch_ops ov_contents ov_laws ov_ops ovc_new /\
  s_history ov_batch_ops ov_contents ov_laws c14_ops c14_h [5] [3] [4] /\
  option_map (fun s => flat_map w (map ov_contents (map_batches s))) (s_run ov_batch_ops (with_effort 1) c14_ops) = Some [((1, 11, 3), 1%Z); ((2, 10, 3), 2%Z)] /\
  consolidate (w (flat_map ov_contents c14_h)) = [((1, 11, 3), 1%Z); ((2, 10, 3), 2%Z)].
Proof. split; [apply ov_readable|]. split; [exact c14_history|]. vm_compute. auto. Qed.
Example c31_entered : refines (T1:=nat) (T2:=nat*nat) product_refines /\ enter_in product_refines [(3, 2); (4, 1); (3, 1)] = [3] /\
  enter_out (T2:=nat*nat) product_refines [3] = [(3, 0)] /\
  option_map (fun d => (d_lower d, d_upper d)) (enter_description (T2:=nat*nat) product_refines {| d_lower := [1]; d_upper := []; d_since := [0] |}) = Some ([(1, 0)], []).
Proof. split; [apply product_is_refines|]. vm_compute. auto. Qed.
