(** C55: reducing through proxies: hashes for the keys, which may collide, and identifiers for the values. *)
From Coq Require Import Sorting.Sorted.
From Verif Require Import Base.Arrays Spec.ReduceSpec Proofs.DiscoverResultP Proofs.ReduceP Proofs.SpineInstP Proofs.SpineP Proofs.ReadableInstP Model.OrdNeuM Props.OrdNeuProps Props.ReduceProps Props.ReduceRunProps.
From Verif Require Import Proofs.ProxyOperatorP Proofs.ProxyBackendP.
From Verif Require Import Base.Collections Base.Order.

(** The times found for a key suffice, for any lattice of times, inputs, new times [seeds], kept times [pending] and history of the output.
    The search does not fail; the moments it gives are of the interval, each once and in order, and none before all of the new and kept times, where
    nothing changes; the times it gives to keep are beyond the interval.  And if the output is corrected at the moments only, each time to what any
    function [F] of the accumulated input says, then it is right at all times of the interval that are at or after a new or kept
    time; so every time of the interval at which the output has to change is found.  It is right also at the times beyond the interval with
    a totally ordered past that have no kept time at or before them; so all such times are kept. *)
Theorem c55_discover_suffices : forall (V V2 T R R2 : Type) (OV : Ord V) (OV2 : Ord V2) (TT : Time T) (DR : Diff R) (D2 : Diff R2) (A2 : Abelian R2)
  (upper : list T) (input : list (V * T * R)) (pending seeds : list T) (output : list (V2 * T * R2)), StronglySorted le pending ->
  let changes t := exists s, In s (seeds ++ pending) /\ tle s t = true in
  exists moments kept, discover_times upper input pending seeds (map (fun u => snd (fst u)) output) = Some (moments, kept) /\
    strictly_sorted moments /\ Forall (fun t => ~ beyond upper t /\ changes t) moments /\
    strictly_sorted kept /\ Forall (fun t => beyond upper t /\ changes t) kept /\
    forall (F : T -> V2 -> R2) (corrections : list (V2 * T * R2)),
      (forall t t', changes t -> changes t' -> (forall v, acc input v t = acc input v t') -> forall v, F t v = F t' v) ->
      Forall (fun u => In (snd (fst u)) moments) corrections ->
      let right t := forall v, acc (output ++ corrections) v t = F t v in
      (forall t, In t moments -> right t) ->
      (forall t, changes t -> ~ beyond upper t -> right t) /\
      (forall t, changes t -> linear_past t -> (forall p, In p kept -> tle p t = false) -> right t).
Proof.
  intros. destruct (discover_times_ok (V2:=V2) (R2:=R2) upper input pending seeds output H) as (moments & kept & E & Q1 & Q2 & Q3 & Q4 & Q5).
  exists moments, kept. split; [exact E|]. split; [exact Q1|]. split.
  { eapply Forall_impl; [|exact Q2]. intros t [H1 H2]. apply ac_less_equal_false in H1. auto. }
  split; [exact Q3|]. assert (Q4' : Forall (fun t => beyond upper t /\ changes t) kept).
  { eapply Forall_impl; [|exact Q4]. intros t [H1 H2]. apply ac_less_equal_spec in H1. auto. }
  split; [exact Q4'|]. intros F corr Fe Hc right Hm.
  assert (G : forall t, changes t -> ac_less_equal upper t = false \/ linear_past t -> (forall p, In p kept -> tle p t = false) -> right t).
  { intros t Ct Ot Hk v. rewrite acc_app. symmetry. apply (Q5 F corr Fe); auto.
    - intros u Hu. rewrite Forall_forall in Hc. auto.
    - intros x Hx v'. rewrite <- acc_app. symmetry. apply Hm; auto. }
  split.
  - intros t Ct Bt. apply G; [auto|left; apply ac_less_equal_false; auto|]. intros p Hp. destruct (tle p t) eqn:L; auto. destruct Bt.
    rewrite Forall_forall in Q4'. eapply beyond_mono; [exact L|apply Q4'; auto].
  - intros t Ct Lt Hp. apply G; auto.
Qed.
Print Assumptions c55_discover_suffices.

(** A key with times in two dimensions: one new update, which meets earlier ones not comparable with it at the joins of their times, and one
    kept time.  The times within the interval are visited, those beyond it kept. *)
Definition c55_input : list (nat * (nat * nat) * Z) := [(7, (0, 1), 1%Z); (7, (2, 0), 1%Z); (8, (3, 0), 1%Z)].
Definition c55_output : list (nat * (nat * nat) * Z) := [(1, (2, 0), 1%Z); (2, (3, 0), 1%Z); (1, (3, 0), (-1)%Z)].
Example c55_discover_case :
  discover_times (R:=Z) [(3, 1); (4, 0)] c55_input [(2, 2)] [(0, 1)] (map (fun u => snd (fst u)) c55_output) = Some ([(0, 1); (2, 1); (2, 2)], [(3, 1)]) /\
  StronglySorted le [(2, 2)].
Proof. split; [vm_compute; reflexivity|]. constructor; constructor. Qed.

Section Any.
Context {B1 M1 B2 M2 K V1 V2 T R1 R2 H I S : Type} {OK : Ord K} {OV1 : Ord V1} {OV2 : Ord V2} {OH : Ord H} {OI : Ord I} {TT : Time T} {D1 : Diff R1} {D2 : Diff R2} {A2 : Abelian R2}
  (bops1 : BatchOps B1 M1 T) (contents1 : B1 -> list (K * V1 * T * R1)) (laws1 : BatchLaws (D:=K*V1) bops1 contents1)
  (bops2 : BatchOps B2 M2 T) (contents2 : B2 -> list (K * V2 * T * R2)) (laws2 : BatchLaws (D:=K*V2) bops2 contents2)
  (backend : ReduceBackend B1 B2 T R1 R2 H I S) (hash : K -> H) (F : K -> list (V1 * R1) -> V2 -> R2).
(** What is asked of a backend: see [serves].  It has a state [s0] to begin with. *)
Definition reduces_proxies (idle : S -> Prop) : Prop :=
  (forall k v, F k [] v = dzero) /\ exists session, serves bops1 contents1 laws1 bops2 contents2 laws2 backend hash F idle session.

(** One round of the work, over an interval from [lower] to [upper], for any lattice of times, any backend, and any hash of the keys.  Times kept for later are kept by
    hash.  Suppose that, at all times of the interval with no kept time of the key's hash at or before them, and at all times beyond the interval with a totally
    ordered past and no such kept time, the output was the function of the input before the new updates.  Then after the round the output is right at *all* times of
    the interval, kept times or not, and it is right at the times beyond the interval with a totally ordered past that have no time kept then at or before them.
    The times kept are beyond the interval, and beyond the frontier that is to be held; the batches abut, are sent at times held, and their
    updates are in their intervals and not before those times.
    Missing for the full property: times beyond the interval with a past that is not totally ordered, for which it is refuted below. *)
Theorem c55_proxy_round_partial : forall idle, reduces_proxies idle ->
  forall (source : list B1) (output : list B2) (input : list B1) (lower upper held : list T) (pending : list (H * list T)) (s : S), idle s ->
  Forall (bl_ok _ _ laws1) source -> Forall (bl_ok _ _ laws2) output -> Forall (bl_ok _ _ laws1) input ->
  strictly_sorted (map fst pending) -> Forall (fun kp => snd kp <> [] /\ strictly_sorted (snd kp)) pending ->
  antichain lower -> antichain upper -> antichain held -> (forall t, beyond upper t -> beyond lower t) -> Forall (beyond lower) held ->
  (forall h ps p, In (h, ps) pending -> In p ps -> beyond held p) ->
  Forall (fun u => beyond held (snd (fst u)) /\ ~ beyond upper (snd (fst u))) (flat_map contents1 input) ->
  let right k t ins outs := forall i, consolidated i -> (forall a, weight i a = acc (flat_map contents1 ins) (k, a) t) -> forall v, acc (flat_map contents2 outs) (k, v) t = F k i v in
  let visible t := ~ beyond upper t \/ linear_past t in
  let clear kept k t := forall ps p, In (hash k, ps) kept -> In p ps -> tle p t = false in
  (forall k t, beyond lower t -> visible t -> clear pending k t -> right k t source output) ->
  exists produced frontier next s', proxy_retire backend source output input lower upper held pending s = Some (produced, frontier, (next, s')) /\ idle s' /\
    (forall k t, beyond lower t -> ~ beyond upper t -> right k t (source ++ input) (output ++ map snd produced)) /\
    (forall k t, beyond lower t -> linear_past t -> clear next k t -> right k t (source ++ input) (output ++ map snd produced)) /\
    strictly_sorted (map fst next) /\ Forall (fun kp => snd kp <> [] /\ strictly_sorted (snd kp)) next /\
    (forall h ps p, In (h, ps) next -> In p ps -> beyond upper p /\ beyond frontier p) /\ Forall (beyond held) frontier /\
    (exists up, tiles bops2 lower (map snd produced) up /\ forall t, beyond upper t -> beyond up t) /\
    Forall (fun tb => In (fst tb) held /\ Forall (fun u => tle (fst tb) (snd (fst u)) = true) (contents2 (snd tb)) /\ within bops2 contents2 (snd tb)) produced.
Proof.
  intros idle (F_nil & session & HS) source output input lower upper held pending s Is G1 G2 G3 G4 G5 G6 G7 G8 G9 G10 G11 G12 right visible clear Hb.
  destruct (proxy_retire_ok bops1 contents1 laws1 bops2 contents2 laws2 backend hash F F_nil idle session HS visible source output input lower upper held pending s)
    as (produced & frontier & next & s' & up & E & Q0 & Q1 & Q2 & Q3 & Q4 & Q5 & Q6 & Q7 & Q8 & Q9 & Q10 & _); auto.
  - intros t [Ht|Ht]; [left; apply ac_less_equal_false; auto|right; auto].
  - exists produced, frontier, next, s'. split; [exact E|]. split; [auto|]. split; [|split; [|split; [auto|split; [auto|split; [|split; [|split]]]]]].
    + intros k t Bt Nt. apply (Q10 k t Bt (or_introl Nt)). intros ps p H1 H2. destruct (tle p t) eqn:L; auto. destruct Nt. eapply beyond_mono; [exact L|]. eapply Q8; eauto.
    + intros k t Bt Lt Hc. apply (Q10 k t Bt (or_intror Lt)). exact Hc.
    + intros h ps p H1 H2. destruct (Q8 h ps p H1 H2). auto.
    + eapply Forall_impl; [|exact Q7]. cbv beta. tauto.
    + exists up. auto.
    + eapply Forall_impl; [|exact Q3]. intros tb (_ & _ & H3 & _ & H5). split; [exact H3|]. split; [eapply Forall_impl; [|exact H5]; cbv beta; tauto|]. eapply Forall_impl; [|exact H5]. cbv beta. tauto.
Qed.

(** The operator, with the tactic over the backend. *)
Definition proxy_reaches (s0 : S) := rreaches bops1 contents1 laws1 bops2 (reduce_proxy_tactic backend) ([], s0).
(** At every time that the input is done with, and whose past is totally ordered, the accumulated output of each key is the function of its accumulated
    input, whatever the schedule, whatever was compacted, and whichever keys have the same hash. *)
Theorem c55_proxy_reduce_linear_past_partial : forall idle s0, reduces_proxies idle -> idle s0 ->
  forall e handle w, proxy_reaches s0 e handle w ->
  forall k t, ~ beyond (sd_front (rw_in w)) t -> linear_past t ->
  forall input, consolidated input -> (forall a, weight input a = acc (flat_map contents1 (sd_hist (rw_in w))) (k, a) t) ->
  forall v, acc (flat_map contents2 (map fst (rw_log w))) (k, v) t = F k input v.
Proof.
  intros idle s0 (F_nil & session & HS) I0 e handle w HW k t Ht HL i Ci Wi v.
  eapply (reduce_ok F bops1 contents1 laws1 bops2 contents2 laws2 _ _ _ (proxy_retires bops1 contents1 laws1 bops2 contents2 laws2 backend hash F F_nil idle session HS) ([], s0)); eauto.
  - split; [constructor|]. split; [constructor|]. split; [exact I0|]. intros h ps [].
  - intros k' t' (ps & [] & _).
Qed.
(** The operator never panics: the tactic does not fail, has a capability at or before every time it needs one for, and its batches fit the output trace. *)
Theorem c55_proxy_reduce_never_fails : forall idle s0, reduces_proxies idle -> idle s0 ->
  forall e handle w, proxy_reaches s0 e handle w ->
  forall msgs frontier s' answer, delivers contents1 (rw_in w) msgs frontier s' -> timely bops1 contents1 msgs s' ->
  exists result, r_activate bops1 bops2 (reduce_proxy_tactic backend) (sd_spine (rw_in w)) msgs frontier answer (rw_op w) (rw_trace w) = Some result.
Proof.
  intros idle s0 (F_nil & session & HS) I0 e handle w HW msgs fr s' answer HD HT.
  eapply (reduce_runs F bops1 contents1 laws1 bops2 contents2 laws2 _ _ _ (proxy_retires bops1 contents1 laws1 bops2 contents2 laws2 backend hash F F_nil idle session HS) ([], s0)); eauto.
  - split; [constructor|]. split; [constructor|]. split; [exact I0|]. intros h ps [].
  - intros k' t' (ps & [] & _).
Qed.
(** Capabilities are held for work only: if messages are sent promptly, then every capability held is at a time with a kept time at or after it; when nothing is kept, none is held. *)
Theorem c55_proxy_capabilities : forall idle s0, reduces_proxies idle -> idle s0 ->
  forall e handle w, rprompt bops1 contents1 laws1 bops2 (reduce_proxy_tactic backend) ([], s0) e handle w ->
  Forall (fun c => exists h ps p, In (h, ps) (fst (rs_pending (rw_op w))) /\ In p ps /\ tle c p = true) (rs_caps (rw_op w)).
Proof.
  intros idle s0 (F_nil & session & HS) I0 e handle w HW.
  destruct (prompt_needed F bops1 contents1 laws1 bops2 contents2 laws2 _ _ _ (proxy_retires bops1 contents1 laws1 bops2 contents2 laws2 backend hash F F_nil idle session HS) ([], s0)) with (e:=e) (handle:=handle) (rw:=w) as [_ Hn]; auto.
  - split; [constructor|]. split; [constructor|]. split; [exact I0|]. intros h ps [].
  - intros k' t' (ps & [] & _).
  - eapply Forall_impl; [|exact Hn]. intros c (k & p & (ps & H1 & H2) & L). eauto 6.
Qed.
End Any.
Print Assumptions c55_proxy_capabilities.
Print Assumptions c55_proxy_round_partial.
Print Assumptions c55_proxy_reduce_linear_past_partial.
Print Assumptions c55_proxy_reduce_never_fails.

(** ** A backend
    What is asked of backends can be met, for any reduction, any hash, and any batches. *)
Theorem c55_backend_exists : forall (B1 M1 C1 B2 M2 C2 K V T R1 R2 H : Type) (OK : Ord K) (OV : Ord V) (OH : Ord H) (TT : Time T) (D1 : Diff R1) (D2 : Diff R2) (A2 : Abelian R2)
  bops1 contents1 laws1 bops2 contents2 laws2 (cops1 : CursorOps B1 C1 K V T R1) new1 (cops2 : CursorOps B2 C2 K V T R2) new2 build, implements (M1:=M1) (M2:=M2) bops1 contents1 laws1 bops2 contents2 laws2 cops1 new1 cops2 new2 build ->
  forall (hash : K -> H) logic F, reduces logic F -> reduces_proxies bops1 contents1 laws1 bops2 contents2 laws2 (pb contents1 contents2 hash logic build) hash F (fun _ => True).
Proof.
  intros. destruct H0 as (_ & _ & HB). split; [apply H1|]. exists (pb_session (B1:=B1) (B2:=B2) hash). apply pb_serves; auto.
Qed.
Print Assumptions c55_backend_exists.

(** Three activations of the operator, with times that are pairs, where both keys have the same hash. *)
Local Notation P := (nat * nat)%type.
Definition c55_u1 : list (nat * nat * P * Z) := [((1, 9), (7, 0), 1%Z); ((2, 9), (0, 0), 1%Z)].
Definition c55_u2 : list (nat * nat * P * Z) := [((1, 7), (1, 2), 1%Z); ((1, 8), (2, 1), 1%Z); ((1, 8), (3, 1), (-1)%Z); ((2, 8), (0, 1), 1%Z)].
Definition c55_tactic : tactic_of (OrdValBatch nat nat P Z) (OrdValBatch nat nat P Z) _ P := reduce_proxy_tactic (pb (K:=nat) (V:=nat) ov_contents ov_contents (fun _ => 0) (abelian_logic c23_size) ovb_seal).
Notation c55_run := (c23_runs c55_u1 c55_u2 (0, 1) (5, 1) c55_tactic ([], ([], []))).
Example c55_run_case : exists st w o l, c55_run = Some (st, w, o, l) /\
  flat_map ov_contents (map fst l) =
    [((1, 1), (7, 0), 1%Z); ((2, 1), (0, 0), 1%Z); ((1, 1), (1, 2), 1%Z); ((1, 1), (2, 1), 1%Z); ((1, 1), (2, 2), (-2)%Z); ((1, 1), (3, 1), (-1)%Z); ((1, 1), (3, 2), 2%Z);
     ((1, 2), (2, 2), 1%Z); ((1, 2), (3, 2), (-1)%Z); ((2, 1), (0, 1), (-1)%Z); ((2, 2), (0, 1), 1%Z); ((1, 1), (7, 2), (-2)%Z); ((1, 2), (7, 2), 1%Z)].
Proof.
  destruct c55_run as [[[[st w] o] l]|] eqn:E; [|vm_compute in E; discriminate]. exists st, w, o, l. split; [auto|].
  vm_compute in E. injection E as <- <- <- <-. vm_compute. reflexivity.
Qed.
Lemma c55_good : c23_good c55_u1 c55_u2 (0, 1) (5, 1).
Proof. repeat split; try (repeat constructor; fail); try discriminate; vm_compute; discriminate. Qed.
(** The theorem applies to it: at time (9, 0) key 1 has one value. *)
Example c55_run_reduce : forall st w o l, c55_run = Some (st, w, o, l) -> forall v, acc (flat_map ov_contents (map fst l)) (1, v) (9, 0) = if eqb 1 v then 1%Z else 0%Z.
Proof.
  intros st w o l E v.
  assert (H := c55_proxy_reduce_linear_past_partial _ _ _ _ _ _ _ (fun _ => 0) _ (fun _ => True) ([], []) (c55_backend_exists _ _ _ _ _ _ _ _ _ _ _ nat _ _ _ _ _ _ _ _ _ _ _ _ _ _ _ _ _ _ c23_implements (fun _ => 0) _ _ (c23_reduce_abelian c23_size)) Logic.I
    1 _ _ (c23_reaches_any c55_u1 c55_u2 (0, 1) (5, 1) c55_tactic ([], ([], [])) c55_good st w o l E) 1 (9, 0)). clear E.
  cbn [rw_log c23_world] in H. rewrite (H) with (input := [(9, 1%Z)]).
  - cbn [c23_size length]. cbn. destruct v as [|[|v]]; reflexivity.
  - apply beyond_nil.
  - intros [a a'] [b b'] Ha Hb. cbn in Ha, Hb. apply andb_prop in Ha, Hb. destruct Ha as [_ Ha], Hb as [_ Hb].
    destruct a' as [|a']; [|discriminate]. destruct b' as [|b']; [|discriminate]. change (tle (a, 0) (b, 0)) with (int_le a b && true)%bool. change (tle (b, 0) (a, 0)) with (int_le b a && true)%bool.
    rewrite !Bool.andb_true_r. destruct (tle_total a b) as [H1|H1]; [left|right]; exact H1.
  - split; repeat constructor.
  - intros x. rewrite (c23_world_input c55_u1 c55_u2 (0, 1) (5, 1) st w l o c55_good). destruct x as [|[|[|[|[|[|[|[|[|[|x]]]]]]]]]]; vm_compute; reflexivity.
Qed.

(** ** Beyond the interval
    At times beyond the interval with a past that is not totally ordered, the claim is false, even if the output was right at *all* times before the round.  Times are triples.  The input had the
    value 9 from (6,0,0), which compaction moved to (6,0,1), as is allowed, because the interval starts at (0,0,1).  The new values 7 at (1,7,1) and 8 at (2,0,7) are in the interval, which ends at
    (5,0,1), and (6,0,1) is beyond it.  The join (6,7,1) of (6,0,1) and (1,7,1) is neither visited nor kept, and the output is wrong there, and stays so. *)
Local Notation P3 := (nat * nat * nat)%type.
Definition c55_batch us lo up si : OrdValBatch nat nat P3 Z := ovb_seal [us] {| d_lower := lo; d_upper := up; d_since := si |}.
Definition c55_source := [c55_batch [((1, 9), (6, 0, 1), 1%Z)] [(0, 0, 0)] [(0, 0, 1)] [(0, 0, 1)]].
Definition c55_out := [c55_batch [((1, 1), (6, 0, 1), 1%Z)] [(0, 0, 0)] [(0, 0, 1)] [(0, 0, 1)]].
Definition c55_new := [c55_batch [((1, 7), (1, 7, 1), 1%Z); ((1, 8), (2, 0, 7), 1%Z)] [(0, 0, 1)] [(5, 0, 1)] [(0, 0, 0)]].
Example c55_missed : exists produced s', proxy_retire (pb (K:=nat) (V:=nat) ov_contents ov_contents (fun _ => 0) (abelian_logic c23_size) ovb_seal) c55_source c55_out c55_new [(0, 0, 1)] [(5, 0, 1)] [(1, 0, 1)] [] ([], [])
    = Some (produced, [], ([], s')) /\ flat_map ov_contents (map snd produced) = [((1, 1), (1, 7, 1), 1%Z); ((1, 1), (2, 0, 7), 1%Z); ((1, 1), (2, 7, 7), (-2)%Z); ((1, 2), (2, 7, 7), 1%Z)].
Proof. eexists _, _. split; vm_compute; reflexivity. Qed.
Theorem c55_proxy_round_refuted : ~ (forall (source output input : list (OrdValBatch nat nat P3 Z)) (lower upper held : list P3) pending s,
  let right k t ins outs := forall i, consolidated i -> (forall a, weight i a = acc (flat_map ov_contents ins) (k, a) t) ->
     forall v, acc (flat_map ov_contents outs) (k, v) t = match i with [] => 0%Z | _ => weight (c23_size k i) v end in
  let clear (kept : list (nat * list P3)) t := forall ps p, In (0, ps) kept -> In p ps -> tle p t = false in
  Forall (bl_ok _ _ ov_laws) source -> Forall (bl_ok _ _ ov_laws) output -> Forall (bl_ok _ _ ov_laws) input ->
  strictly_sorted (map fst pending) -> Forall (fun kp => snd kp <> [] /\ strictly_sorted (snd kp)) pending ->
  antichain lower -> antichain upper -> antichain held -> (forall t, beyond upper t -> beyond lower t) -> Forall (beyond lower) held ->
  (forall h ps p, In (h, ps) pending -> In p ps -> beyond held p) ->
  Forall (fun u => beyond held (snd (fst u)) /\ ~ beyond upper (snd (fst u))) (flat_map ov_contents input) ->
  (forall k t, beyond lower t -> clear pending t -> right k t source output) ->
  exists produced frontier next s', proxy_retire (pb (K:=nat) (V:=nat) ov_contents ov_contents (fun _ => 0) (abelian_logic c23_size) ovb_seal) source output input lower upper held pending s = Some (produced, frontier, (next, s')) /\
    forall k t, beyond lower t -> clear next t -> right k t (source ++ input) (output ++ map snd produced)).
Proof.
  intros G. destruct c55_missed as (produced & s' & E & Ep).
  assert (HB : forall us lo up si, consolidated (A:=nat*nat*P3) us -> bl_ok _ _ ov_laws (c55_batch us lo up si) /\ ov_contents (c55_batch us lo up si) = us).
  { intros us lo up si HC. destruct (proj2 (proj2 c23_implements) [us] {| d_lower := lo; d_upper := up; d_since := si |}) as (H1 & H2 & _); [cbn; rewrite app_nil_r; auto|]. split; [exact H1|]. cbn in H2. rewrite app_nil_r in H2. exact H2. }
  assert (EP : forall a b k v : nat, @eqb P (@time_ord P _) (a, b) (k, v) = (eqb a k && eqb b v)%bool) by (intros; exact (eqb_pairs a b (k, v))).
  assert (C1 : forall kv t, consolidated (A:=nat*nat*P3) [(kv, t, 1%Z)]) by (intros; split; repeat constructor).
  destruct (HB [((1, 9), (6, 0, 1), 1%Z)] [(0, 0, 0)] [(0, 0, 1)] [(0, 0, 1)] (C1 _ _)) as [S1 S2]. destruct (HB [((1, 1), (6, 0, 1), 1%Z)] [(0, 0, 0)] [(0, 0, 1)] [(0, 0, 1)] (C1 _ _)) as [O1 O2]. destruct (HB [((1, 7), (1, 7, 1), 1%Z); ((1, 8), (2, 0, 7), 1%Z)] [(0, 0, 1)] [(5, 0, 1)] [(0, 0, 0)]) as [N1 N2]; [split; repeat constructor|].
  assert (A1 : forall f : P3, antichain [f]) by (intros f; constructor; [intros y []|constructor]).
  destruct (G c55_source c55_out c55_new [(0, 0, 1)] [(5, 0, 1)] [(1, 0, 1)] [] ([], [])) as (produced' & frontier & next & s2 & E' & Hr); clear G.
  - constructor; auto.
  - constructor; auto.
  - constructor; auto.
  - constructor.
  - constructor.
  - auto.
  - auto.
  - auto.
  - intros t (x & [<-|[]] & L). exists (0, 0, 1). split; [left; auto|]. eapply tle_trans; [|exact L]. reflexivity.
  - constructor; [|constructor]. exists (0, 0, 1). split; [left; auto|reflexivity].
  - intros h ps p [].
  - unfold c55_new. cbn [flat_map]. rewrite N2. cbn [app]. constructor; [|constructor; [|constructor]]; cbn [fst snd]; (split; [exists (1, 0, 1); split; [left; auto|reflexivity]|]; intros (x & [<-|[]] & L); discriminate).
  - intros k t Bt _ i Ci Wi v. unfold c55_source, c55_out in *. cbn [flat_map] in *. rewrite S2 in Wi. rewrite O2. cbn [app] in *.
    assert (Ei : i = if eqb 1 k && tle (6, 0, 1) t then [(9, 1%Z)] else []).
    { apply consolidated_unique; [exact Ci|destruct (_ && _)%bool; split; repeat constructor|]. intros a. rewrite Wi. unfold acc. cbn [filter map fst snd]. rewrite EP. cbn [fst snd]. destruct (eqb 1 k), (tle (6, 0, 1) t), (eqb 9 a) eqn:E9; cbn [andb]; unfold weight; cbn [filter map fst snd]; rewrite ?E9; reflexivity. }
    subst i. unfold acc. cbn [filter map fst snd]. rewrite EP. cbn [fst snd]. destruct (eqb 1 k), (tle (6, 0, 1) t), (eqb 1 v) eqn:E9; cbn [andb]; unfold c23_size, weight; cbn [length]; cbn [filter map fst snd]; rewrite ?E9; reflexivity.
  - rewrite E in E'. injection E' as <- <- <- <-. specialize (Hr 1 (6, 7, 1)). rewrite !flat_map_app, Ep in Hr. unfold c55_source, c55_out, c55_new in Hr. cbn [flat_map] in Hr. rewrite S2, O2, N2 in Hr.
    assert (X := fun a b => Hr a b [(7, 1%Z); (9, 1%Z)]). clear Hr. assert (X' : 0%Z = 1%Z); [|discriminate].
    apply (X) with (v := 2).
    + exists (0, 0, 1). split; [left; auto|reflexivity].
    + intros ps p [].
    + split; repeat constructor.
    + intros x. destruct x as [|[|[|[|[|[|[|[|[|[|x]]]]]]]]]]; vm_compute; reflexivity.
Qed.
Print Assumptions c55_proxy_round_refuted.
