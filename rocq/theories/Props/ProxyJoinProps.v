(** C54: joining through proxies: hashes for the keys, which may collide, and identifiers for the data. *)
From Verif Require Import Base.Arrays Base.Collections Model.OrdNeuM Proofs.SpineP Proofs.ConsolidationP Proofs.BilinearP Proofs.JoinTacticP Proofs.ReadableInstP
  Proofs.ProxyJoinP Props.SpineProps Props.JoinProps.

(** Every backend that keeps the contract: the tactic joins any batches, with any chunk length.  What [joins] gives of the join operator (C21)
    it gives with this tactic. *)
Theorem c54_proxy_tactic_joins : forall (B1 M1 B2 M2 K V1 V2 D T R1 R2 R3 H I S : Type) (OK : Ord K) (OV1 : Ord V1) (OV2 : Ord V2) (OD : Ord D)
  (OH : Ord H) (OI : Ord I) (TT : Time T) (D1 : Diff R1) (D2 : Diff R2) (D3 : Diff R3) (MU : Multiply R1 R2 R3)
  (ops1 : BatchOps B1 M1 T) (contents1 : B1 -> list (K * V1 * T * R1)) (laws1 : BatchLaws (D:=K*V1) ops1 contents1)
  (ops2 : BatchOps B2 M2 T) (contents2 : B2 -> list (K * V2 * T * R2)) (laws2 : BatchLaws (D:=K*V2) ops2 contents2)
  (backend : JoinBackend B1 B2 T R1 R2 R3 (D * T * R3) H I S) (result : K -> V1 -> V2 -> list D) (hash : K -> H),
  keeps_contract ops1 contents1 laws1 ops2 contents2 laws2 backend result hash ->
  forall chunk s, joins ops1 contents1 laws1 ops2 contents2 laws2 (proxy_tactic (MU:=MU) backend chunk s) (MU:=MU) result.
Proof. intros. apply (proxy_joins _ _ _ _ _ _ _ _ hash). assumption. Qed.
Print Assumptions c54_proxy_tactic_joins.

(** Hence the operator's output: at each time, settled in both inputs and after their compaction, the join of the inputs. *)
Theorem c54_proxy_join_accumulates : forall (B1 M1 B2 M2 K V1 V2 D T R1 R2 R3 H I S : Type) (OK : Ord K) (OV1 : Ord V1) (OV2 : Ord V2) (OD : Ord D)
  (OH : Ord H) (OI : Ord I) (TT : Time T) (D1 : Diff R1) (D2 : Diff R2) (D3 : Diff R3) (MU : Multiply R1 R2 R3)
  (ops1 : BatchOps B1 M1 T) (contents1 : B1 -> list (K * V1 * T * R1)) (laws1 : BatchLaws (D:=K*V1) ops1 contents1)
  (ops2 : BatchOps B2 M2 T) (contents2 : B2 -> list (K * V2 * T * R2)) (laws2 : BatchLaws (D:=K*V2) ops2 contents2)
  (backend : JoinBackend B1 B2 T R1 R2 R3 (D * T * R3) H I S) (result : K -> V1 -> V2 -> list D) (hash : K -> H),
  keeps_contract ops1 contents1 laws1 ops2 contents2 laws2 backend result hash ->
  forall chunk s budget h1 h2 w, jreaches ops1 contents1 laws1 ops2 contents2 laws2 (proxy_tactic (MU:=MU) backend chunk s) budget h1 h2 w ->
  forall t, beyond (fst h1) t -> beyond (fst h2) t ->
  ~ beyond (sd_front (jw_in1 w)) t -> ~ beyond (sd_front (jw_in2 w)) t -> Forall (fun c => tle c t = false) (jheld (jw_join w)) ->
  forall d, acc (produced w) d t = acc (join_updates (MU:=MU) result (flat_map contents1 (sd_hist (jw_in1 w))) (flat_map contents2 (sd_hist (jw_in2 w)))) d t.
Proof.
  intros. eapply (c21_join_accumulates ops1 contents1 laws1 ops2 contents2 laws2 (proxy_tactic backend chunk s) result budget h1 h2); eauto.
  apply (proxy_joins _ _ _ _ _ _ _ _ hash). assumption.
Qed.
Print Assumptions c54_proxy_join_accumulates.

(** ** A backend
    Its identifiers are the data themselves; it loads the batches' updates, at the times joined with the lower bound. *)
Section Reference.
Context {B1 M1 B2 M2 K V D T R1 R2 R3 H : Type} {OK : Ord K} {OV : Ord V} {OD : Ord D} {OH : Ord H} {TT : Time T} {D1 : Diff R1} {D2 : Diff R2} {D3 : Diff R3} {MU : Multiply R1 R2 R3}.
Variable ops1 : BatchOps B1 M1 T. Variable contents1 : B1 -> list (K * V * T * R1). Variable laws1 : BatchLaws (D:=K*V) ops1 contents1.
Variable ops2 : BatchOps B2 M2 T. Variable contents2 : B2 -> list (K * V * T * R2). Variable laws2 : BatchLaws (D:=K*V) ops2 contents2.
Variable result : K -> V -> V -> list D.
Variable hash : K -> H.
Definition rb_lower (l : list T) (t : T) : T := match l with [m] => join t m | _ => t end.
Definition rb_wanted (keys : option (list H)) (k : K) : bool := match keys with None => true | Some hs => existsb (fun h => eqb h (hash k)) hs end.
Definition rb_present {R} {DR : Diff R} (lower : list T) (keys : option (list H)) (us : list (K * V * T * R)) : bridge H (K * V) T R :=
  consolidate (A:=H*(K*V)*T) (map (fun u => ((hash (fst (fst (fst u))), fst (fst u)), rb_lower lower (snd (fst u)), snd u)) (filter (fun u => rb_wanted keys (fst (fst (fst u)))) us)).
Definition rb_cross (l r : H * (K * V)) (t : T) (d : R3) : list (D * T * R3) :=
  if eqb (fst (snd l)) (fst (snd r)) then map (fun e => (e, t, d)) (result (fst (snd l)) (snd (snd l)) (snd (snd r))) else [].
Definition reference_backend : JoinBackend B1 B2 T R1 R2 R3 (D * T * R3) H (K * V) nat := {|
  jb_present0 := fun inst keys s => (Datatypes.S s, rb_present (ji_lower inst) keys (flat_map contents1 (ji_batches0 inst)));
  jb_present1 := fun inst keys s => (Datatypes.S s, rb_present (ji_lower inst) keys (flat_map contents2 (ji_batches1 inst)));
  jb_cross := fun inst ls rs ts ds s => (Datatypes.S s, flat_map (fun x => rb_cross (fst (fst (fst x))) (snd (fst (fst x))) (snd (fst x)) (snd x)) (List.combine (List.combine (List.combine ls rs) ts) ds)) |}.

Lemma rb_shows {R} {DR : Diff R} m keys (us : list (K * V * T * R)) :
  bridge_shows hash m snd (rb_present [m] keys us) (filter (fun u => rb_wanted keys (fst (fst (fst u)))) us).
Proof.
  assert (HH : forall u, In u (rb_present [m] keys us) -> hash (fst (snd (fst (fst u)))) = fst (fst (fst u))).
  { intros u Hu. apply (in_map fst) in Hu. apply consolidate_incl in Hu. rewrite map_map in Hu. apply in_map_iff in Hu as (x & E & _). rewrite <- E. reflexivity. }
  split; [apply consolidate_consolidated|]. split; [exact HH|]. split.
  - intros u u' Hu Hu' E. apply HH in Hu. apply HH in Hu'. destruct (fst (fst u)) as [h i], (fst (fst u')) as [h' i']. cbn [fst snd] in *. congruence.
  - exists (map (fun u => (fst (fst u), join (snd (fst u)) m, snd u)) (filter (fun u => rb_wanted keys (fst (fst (fst u)))) us)). split.
    + induction (filter _ us) as [|u l IH]; constructor; auto. repeat split; cbn [fst snd]; [apply join_ub_l|apply tle_refl].
    + intros x. pose proof (map_same_weights (A:=H*(K*V)*T) (B:=K*V*T) (fun y => (snd (fst y), snd y)) _ _ (consolidate_weight (A:=H*(K*V)*T)
        (map (fun u => ((hash (fst (fst (fst u))), fst (fst u)), join (snd (fst u)) m, snd u)) (filter (fun u => rb_wanted keys (fst (fst (fst u)))) us)))) as W.
      specialize (W x). rewrite map_map in W. exact W.
Qed.
Lemma rb_filter_none {R} (us : list (K * V * T * R)) : filter (fun u => rb_wanted None (fst (fst (fst u)))) us = us.
Proof. induction us as [|u us IH]; auto. cbn [filter rb_wanted]. f_equal. exact IH. Qed.
Lemma rb_restricted {R} keys (us : list (K * V * T * R)) : restricted hash keys us (filter (fun u => rb_wanted (Some keys) (fst (fst (fst u)))) us).
Proof. exists (rb_wanted (Some keys)). split; auto. intros k Hk. apply existsb_exists. exists (hash k). split; auto. apply eqb_eq. reflexivity. Qed.
Lemma rb_combine {A B C E} (ms : list (A * B * C * E)) : List.combine (List.combine (List.combine (map (fun x => fst (fst (fst x))) ms) (map (fun x => snd (fst (fst x))) ms)) (map (fun x => snd (fst x)) ms)) (map snd ms) = ms.
Proof. induction ms as [|[[[a b] c] e] ms IH]; cbn; auto. rewrite IH; auto. Qed.
Lemma rb_crosses inst p1 p2 s : crosses reference_backend result inst snd snd p1 p2 s.
Proof.
  exists (fun _ => True). split; auto. intros s0 ms s' c _ _ E. cbn [reference_backend jb_cross] in E. injection E as _ <-. rewrite rb_combine. split; auto. split.
  - assert (E : forall l : list (jmatch (H:=H) (I:=K*V) (T:=T) (RO:=R3)), flat_map (fun x => rb_cross (fst (fst (fst x))) (snd (fst (fst x))) (snd (fst x)) (snd x)) l = flat_map (stands_for result snd snd) l).
    { intros l. apply flat_map_ext. intros [[[a b] t] d]. reflexivity. }
    intros x. rewrite <- E. reflexivity.
  - apply Forall_forall. intros u Hu. apply in_flat_map in Hu as (x & Hx & Hu). unfold rb_cross in Hu. destruct (eqb _ _); [|destruct Hu].
    apply in_map_iff in Hu as (e & <- & _). cbn [fst snd]. apply in_map_iff. exists x; auto.
Qed.
Theorem c54_a_backend_keeps_the_contract : keeps_contract ops1 contents1 laws1 ops2 contents2 laws2 reference_backend result hash.
Proof.
  intros bs1 bs2 m s _ _. split.
  - intros s1 p1 E. cbn [reference_backend jb_present0] in E. injection E as <- <-. exists snd. split; [rewrite <- (rb_filter_none (flat_map contents1 bs1)) at 2; apply rb_shows|].
    intros keys s2 p2 _ _ E. cbn [reference_backend jb_present1] in E. injection E as <- <-. exists snd. eexists. split; [apply rb_restricted|]. split; [apply rb_shows|]. apply rb_crosses.
  - intros s1 p2 E. cbn [reference_backend jb_present1] in E. injection E as <- <-. exists snd. split; [rewrite <- (rb_filter_none (flat_map contents2 bs2)) at 2; apply rb_shows|].
    intros keys s2 p1 _ _ E. cbn [reference_backend jb_present0] in E. injection E as <- <-. exists snd. eexists. split; [apply rb_restricted|]. split; [apply rb_shows|]. apply rb_crosses.
Qed.
End Reference.
Print Assumptions c54_a_backend_keeps_the_contract.

(** ** Runs: keys 1 and 3 have the same hash, and share no match; every match is a chunk of its own, or all are one. *)
Definition c54_b1 : OrdValBatch nat nat nat Z := c14_b [((1, 10, 0), 1%Z); ((2, 12, 3), 2%Z); ((3, 11, 1), 1%Z)] 0 [6].
Definition c54_backend := reference_backend (B1:=OrdValBatch nat nat nat Z) (B2:=OrdValBatch nat nat nat Z) (K:=nat) (V:=nat) (D:=nat*(nat*nat)) (T:=nat) (R1:=Z) (R2:=Z) (R3:=Z) (H:=nat)
  ov_contents ov_contents paired (fun k => k mod 2).
Example c54_run : join_prep c54_backend 1 [c54_b1] [c21_b] true 0 0 = Some [[((2, (12, 20)), 4, 6%Z)]; [((1, (10, 20)), 2, 2%Z)]; [((1, (10, 21)), 5, 1%Z)]; []; []].
Proof. vm_compute. reflexivity. Qed.
Example c54_run_other : option_map (concat (A:=_)) (join_prep c54_backend 100 [c54_b1] [c21_b] false 0 0) = Some [((2, (12, 20)), 4, 6%Z); ((1, (10, 20)), 2, 2%Z); ((1, (10, 21)), 5, 1%Z)].
Proof. vm_compute. reflexivity. Qed.
(** The history-driven way is taken by keys with sixteen updates or more on both sides, and says the same. *)
Definition c54_long (v : nat) : list (nat * (nat * nat) * (nat * nat) * Z) := map (fun i => ((0, (5, v + i mod 3)), (i / 3, 9 - i / 3), 1%Z)) (seq 0 20).
Example c54_long_run : option_map (fun l => consolidate (A:=(nat*(nat*nat))*(nat*(nat*nat))*(nat*nat)) (map (fun x => x) l)) (join_key (R0:=Z) (R1:=Z) (RO:=Z) 0 (c54_long 0) (c54_long 7)) =
  Some (consolidate (A:=(nat*(nat*nat))*(nat*(nat*nat))*(nat*nat)) (flat_map (fun a => map (fun b => ((0, snd (fst (fst a))), (0, snd (fst (fst b))), join (snd (fst a)) (snd (fst b)), dmul (snd a) (snd b))) (c54_long 7)) (c54_long 0))).
Proof. vm_compute. reflexivity. Qed.
