(** C37: half joins, two of which make a join; and the same with the times of altneu.rs. *)
From Verif Require Import Base.Arrays Base.Collections Model.OrdNeuM Proofs.SpineP Proofs.BilinearP Proofs.ReadableInstP Proofs.HalvesP Props.SpineProps Props.JoinProps.

Section AnyBatches.
Context {B M C K V1 V2 D T R1 R2 R3 : Type} {OK : Ord K} {OV1 : Ord V1} {OV2 : Ord V2} {OD : Ord D} {TT : Time T}
  {D1 : Diff R1} {D2 : Diff R2} {D3 : Diff R3} {MU : Multiply R1 R2 R3}
  (ops : BatchOps B M T) (contents : B -> list (K * V2 * T * R2)) (laws : BatchLaws (D:=K*V2) ops contents)
  (cops : CursorOps B C K V2 T R2) (new : C) (HR : readable ops contents laws cops new)
  (frontier_func : T -> list T) (comparison : T -> T -> bool) (output_func : K -> V1 -> V2 -> D) (HC : compatible comparison frontier_func)
  (handle : list T * list T).
Notation world := (hworld B M K V1 D T R1 R3).
Notation reaches := (hreaches ops contents laws cops new frontier_func comparison output_func (MU:=MU) handle).
Notation activate := (h_activate ops cops new frontier_func comparison output_func (MU:=MU)).

(** Whatever the schedule, and wherever the operator yielded: what was sent, and the answers to the proposals kept back, make up the
    answers to all proposals delivered. *)
Theorem c37_half_join (w : world) : reaches w ->
  same_weights (A:=D*T*T) (h_produced w ++ answers (MU:=MU) comparison output_func (h_owed w) (h_input contents w)) (answers (MU:=MU) comparison output_func (hw_asked w) (h_input contents w)).
Proof.
  intros H. destruct (hreaches_inv ops contents laws cops new HR frontier_func comparison output_func HC handle w H) as (A & HI).
  eapply same_weights_trans; [|apply same_weights_sym, answers_congr_l, (hi_asked _ _ _ _ _ _ _ _ HI)].
  rewrite answers_app_l. apply same_weights_app; [apply (hi_produced _ _ _ _ _ _ _ _ HI)|apply same_weights_refl].
Qed.

(** So when no proposal is kept back, each has been answered once. *)
Theorem c37_half_join_complete (w : world) : reaches w -> h_owed w = [] ->
  same_weights (A:=D*T*T) (h_produced w) (answers (MU:=MU) comparison output_func (hw_asked w) (h_input contents w)).
Proof. intros H E. pose proof (c37_half_join w H) as G. rewrite E in G. cbn [answers flat_map] in G. rewrite app_nil_r in G. exact G. Qed.

(** An activation never panics. If [yield_function] does not ask to yield, the operator does not ask to be activated again; and if it does
    not ask for that, a proposal is kept back only when the arranged input may still change at the time of its capability, or there is
    a time in that input's frontier that comes before the proposal's initial time. *)
Theorem c37_half_join_progress (w : world) msgs1 msgs2 F' F2 s' ys : reaches w -> delivers contents (hw_in w) msgs2 F2 s' ->
  Forall (fun m => beyond (hw_front w) (fst m) /\ well_timed m) msgs1 -> (forall t, beyond F' t -> beyond (hw_front w) t) ->
  exists h' outs again, activate (sd_spine (hw_in w)) msgs1 F' F2 ys (hw_op w) = Some (h', outs, again) /\
    (Forall (eq false) ys -> again = false) /\
    (again = false -> forall cap ps p, In (cap, ps) (h_stash h') -> In p ps ->
       (exists f, In f F2 /\ tle f cap = true) \/ (exists f, In f F2 /\ comparison f (snd (fst p)) = true)).
Proof.
  intros H HD Hm HF. destruct (hreaches_inv ops contents laws cops new HR frontier_func comparison output_func HC handle w H) as (A & HI).
  destruct (HalfJoinP.activate_ok ops contents laws cops new HR frontier_func comparison output_func HC w A s' msgs1 msgs2 F' F2 ys HI HD Hm HF)
    as (h' & outs & again & A' & E & _ & _ & _ & Hy & Hw).
  exists h', outs, again. split; [exact E|]. split; [exact Hy|]. intros Ha cap ps p H1 H2. pose proof (Hw Ha) as G. rewrite Forall_forall in G. apply G in H1. cbn [fst snd] in H1.
  rewrite Forall_forall in H1. destruct (H1 p H2) as [Hl|Hb].
  - left. apply ac_less_equal_spec in Hl as (f & F3 & F4). eauto.
  - right. exact Hb.
Qed.
(** With that input closed, none is. *)
Corollary c37_half_join_finishes (w : world) msgs1 msgs2 F' s' ys h' outs : reaches w -> delivers contents (hw_in w) msgs2 [] s' ->
  Forall (fun m => beyond (hw_front w) (fst m) /\ well_timed m) msgs1 -> (forall t, beyond F' t -> beyond (hw_front w) t) ->
  activate (sd_spine (hw_in w)) msgs1 F' [] ys (hw_op w) = Some (h', outs, false) -> flat_map snd (h_stash h') = [].
Proof.
  intros H HD Hm HF E. destruct (c37_half_join_progress w msgs1 msgs2 F' [] s' ys H HD Hm HF) as (h1 & o1 & a1 & E1 & _ & G). rewrite E in E1. injection E1 as <- <- <-.
  specialize (G eq_refl). destruct (flat_map snd (h_stash h')) as [|p l] eqn:Ef; auto. assert (Hp : In p (flat_map snd (h_stash h'))) by (rewrite Ef; left; auto).
  apply in_flat_map in Hp as ([cap ps] & Hc & Hp). destruct (G cap ps p Hc Hp) as [(f & [] & _)|(f & [] & _)].
Qed.

(** The operator sends, and keeps, only with capabilities that its input or what it kept entitle it to; and what it sends is at or after
    the time it is sent at. *)
Theorem c37_half_join_capabilities (w : world) msgs1 msgs2 F' F2 s' ys h' outs again : reaches w -> delivers contents (hw_in w) msgs2 F2 s' ->
  Forall (fun m => beyond (hw_front w) (fst m) /\ well_timed m) msgs1 -> (forall t, beyond F' t -> beyond (hw_front w) t) ->
  activate (sd_spine (hw_in w)) msgs1 F' F2 ys (hw_op w) = Some (h', outs, again) ->
  (forall cap us, In (cap, us) outs -> beyond (hw_front w ++ map fst (h_stash (hw_op w))) cap /\
     forall d t initial r, In (d, t, initial, r) us -> tle cap initial = true /\ tle initial t = true) /\
  (forall cap ps, In (cap, ps) (h_stash h') -> beyond (hw_front w ++ map fst (h_stash (hw_op w))) cap).
Proof.
  intros H HD Hm HF E0. destruct (hreaches_inv ops contents laws cops new HR frontier_func comparison output_func HC handle w H) as (A & HI).
  destruct (HalfJoinP.activate_ok ops contents laws cops new HR frontier_func comparison output_func HC w A s' msgs1 msgs2 F' F2 ys HI HD Hm HF)
    as (h1 & o1 & a1 & A' & E & HI' & Ho & Hs & _). rewrite E0 in E. injection E as <- <- <-. pose proof (hi_out _ _ _ _ _ _ _ _ HI') as Hu. cbn [hw_out] in Hu.
  apply Forall_app in Hu as [_ Hu]. rewrite Forall_forall in Ho, Hs, Hu. split.
  - intros cap us Hi. split; [exact (Ho _ Hi)|]. intros d t i r Hx. specialize (Hu _ Hi). cbn [fst snd] in Hu. rewrite Forall_forall in Hu. exact (Hu _ Hx).
  - intros cap ps Hi. exact (Hs _ Hi).
Qed.
End AnyBatches.
Print Assumptions c37_half_join.
Print Assumptions c37_half_join_complete.
Print Assumptions c37_half_join_progress.
Print Assumptions c37_half_join_finishes.
Print Assumptions c37_half_join_capabilities.

(** ** Two half joins make a join: one comparing strictly, and the other not, by one total order. *)
Section Two.
Context {B1 M1 C1 B2 M2 C2 K V1 V2 D T R1 R2 R3 : Type} {OK : Ord K} {OV1 : Ord V1} {OV2 : Ord V2} {OD : Ord D} {TT : Time T}
  {D1 : Diff R1} {D2 : Diff R2} {D3 : Diff R3} (MU : Multiply R1 R2 R3) (MU' : Multiply R2 R1 R3).
Theorem c37_two_half_joins_pairs (strictly weakly : T -> T -> bool) (result : K -> V1 -> V2 -> D) (c1 : list (K * V1 * T * R1)) (c2 : list (K * V2 * T * R2)) :
  (forall a b, dmul (Multiply:=MU') b a = dmul (Multiply:=MU) a b) -> complementary strictly weakly ->
  same_weights (A:=D*T) (at_their_times (answers (MU:=MU) strictly result (proposals_of c1) c2) ++ at_their_times (answers (MU:=MU') weakly (fun k v2 v1 => result k v1 v2) (proposals_of c2) c1))
    (join_updates (MU:=MU) (fun k v1 v2 => [result k v1 v2]) c1 c2).
Proof. intros HM HO. apply halves_ok; auto. Qed.

Theorem c37_two_half_joins
  (ops1 : BatchOps B1 M1 T) (contents1 : B1 -> list (K * V1 * T * R1)) (laws1 : BatchLaws (D:=K*V1) ops1 contents1)
  (ops2 : BatchOps B2 M2 T) (contents2 : B2 -> list (K * V2 * T * R2)) (laws2 : BatchLaws (D:=K*V2) ops2 contents2)
  (cops1 : CursorOps B1 C1 K V1 T R1) (new1 : C1) (cops2 : CursorOps B2 C2 K V2 T R2) (new2 : C2)
  (ff : T -> list T) (strictly weakly : T -> T -> bool) (result : K -> V1 -> V2 -> D) (h1 h2 : list T * list T)
  (w1 : hworld B2 M2 K V1 D T R1 R3) (w2 : hworld B1 M1 K V2 D T R2 R3) :
  readable ops1 contents1 laws1 cops1 new1 -> readable ops2 contents2 laws2 cops2 new2 ->
  (forall a b, dmul (Multiply:=MU') b a = dmul (Multiply:=MU) a b) -> complementary strictly weakly -> compatible strictly ff -> compatible weakly ff ->
  hreaches ops2 contents2 laws2 cops2 new2 ff strictly result (MU:=MU) h1 w1 ->
  hreaches ops1 contents1 laws1 cops1 new1 ff weakly (fun k v2 v1 => result k v1 v2) (MU:=MU') h2 w2 ->
  (* each is given the changes of what the other looks things up in *)
  same_weights (A:=K*V1*T*T) (hw_asked w1) (proposals_of (h_input contents1 w2)) -> same_weights (A:=K*V2*T*T) (hw_asked w2) (proposals_of (h_input contents2 w1)) ->
  h_owed w1 = [] -> h_owed w2 = [] ->
  same_weights (A:=D*T) (at_their_times (h_produced w1 ++ h_produced w2))
    (join_updates (MU:=MU) (fun k v1 v2 => [result k v1 v2]) (h_input contents1 w2) (h_input contents2 w1)).
Proof.
  intros HR1 HR2 HM HO HC1 HC2 G1 G2 A1 A2 O1 O2.
  eapply same_weights_trans; [|apply (c37_two_half_joins_pairs strictly weakly result); auto]. unfold at_their_times at 1. rewrite map_app. fold (at_their_times (h_produced w1)). fold (at_their_times (h_produced w2)).
  apply same_weights_app; apply at_their_times_congr.
  - eapply same_weights_trans; [apply (c37_half_join_complete ops2 contents2 laws2 cops2 new2 HR2 ff strictly result HC1 h1 w1 G1 O1)|apply answers_congr_l; exact A1].
  - eapply same_weights_trans; [apply (c37_half_join_complete ops1 contents1 laws1 cops1 new1 HR1 ff weakly _ HC2 h2 w2 G2 O2)|apply answers_congr_l; exact A2].
Qed.
End Two.
Print Assumptions c37_two_half_joins_pairs.
Print Assumptions c37_two_half_joins.

(** ** Comparisons with the frontier functions that suit them *)
Lemma c37_beyond1 {T} {LT : Lattice T} (a t : T) : beyond [a] t <-> tle a t = true.
Proof. split; [intros (f & [<-|[]] & H); auto|intros H; exists a; split; [left; auto|auto]]. Qed.

(** integers, strictly: the frontier is held one earlier *)
Theorem c37_nat_strictly : compatible (T:=nat) (fun a b => a <? b) (fun e => [e - 1]).
Proof.
  constructor.
  - intros f t i H1 H2. apply (proj1 (nat_tle _ _)) in H1. apply Nat.ltb_lt in H2. apply Nat.ltb_lt. lia.
  - intros e. apply c37_beyond1, nat_tle. lia.
  - intros e e' H t Ht. apply (proj1 (nat_tle _ _)) in H. apply (proj1 (c37_beyond1 _ _)), (proj1 (nat_tle _ _)) in Ht. apply c37_beyond1, nat_tle. lia.
  - assert (G : forall e i t t', tle e i = true -> indistinct (T:=nat) [e - 1] t t' -> t < i -> t' < i).
    { intros e i t t' H1 H2 H. apply (proj1 (nat_tle _ _)) in H1. assert (Hb : beyond [e - 1] (i - 1)) by (apply c37_beyond1, nat_tle; lia).
      assert (Hx : tle t (i - 1) = tle t' (i - 1)) by exact (H2 _ Hb). assert (tle t (i - 1) = true) as Hy by (apply nat_tle; lia). rewrite Hy in Hx. symmetry in Hx. apply (proj1 (nat_tle _ _)) in Hx. lia. }
    intros e i t t' H1 H2. destruct (Nat.ltb_spec t i), (Nat.ltb_spec t' i); auto.
    + pose proof (G e i t t' H1 H2 H). lia.
    + assert (H2' : indistinct [e - 1] t' t) by (intros u Hu; rewrite (H2 u Hu); auto). pose proof (G e i t' t H1 H2' H0). lia.
Qed.
(** integers, weakly *)
Theorem c37_nat_weakly : compatible (T:=nat) (fun a b => a <=? b) (fun e => [e]).
Proof.
  constructor.
  - intros f t i H1 H2. apply (proj1 (nat_tle _ _)) in H1. apply Nat.leb_le in H2. apply Nat.leb_le. lia.
  - intros e. apply c37_beyond1, nat_tle. lia.
  - intros e e' H t Ht. apply (proj1 (c37_beyond1 _ _)) in Ht. apply c37_beyond1. eapply tle_trans; eauto.
  - intros e i t t' H1 H2. assert (H : tle t i = tle t' i) by exact (H2 i (proj2 (c37_beyond1 _ _) H1)). destruct (Nat.leb_spec t i), (Nat.leb_spec t' i); auto.
    + assert (Ht : tle t i = true) by (apply nat_tle; lia). rewrite Ht in H. symmetry in H. apply (proj1 (nat_tle _ _)) in H. lia.
    + assert (Ht : tle t' i = true) by (apply nat_tle; lia). rewrite Ht in H. apply (proj1 (nat_tle _ _)) in H. lia.
Qed.
(** the strict comparison does not allow the frontier to be held at the time itself: two updates one of which comes before that time and
    one does not could be compacted to it *)
Theorem c37_strictly_needs_earlier_refuted : ~ compatible (T:=nat) (fun a b => a <? b) (fun e => [e]).
Proof.
  intros [_ _ _ H]. assert (G : (0 <? 1) = (1 <? 1)); [|discriminate]. apply (H 1 1 0 1); [reflexivity|]. intros u Hu. apply (proj1 (c37_beyond1 _ _)) in Hu. rewrite Hu. apply nat_tle. lia.
Qed.

(** pairs of integers as in examples/delta_query2.rs: compared by the order of tuples, with the frontier one earlier in both coordinates *)
Definition c37_pair_lt (a b : nat * nat) : bool := (fst a <? fst b) || ((fst a =? fst b) && (snd a <? snd b)).
Definition c37_pair_le (a b : nat * nat) : bool := (fst a <? fst b) || ((fst a =? fst b) && (snd a <=? snd b)).
Definition c37_closure (e : nat * nat) : list (nat * nat) := [(fst e - 1, snd e - 1)].
Lemma c37_pair_tle (a b : nat * nat) : tle a b = true <-> fst a <= fst b /\ snd a <= snd b.
Proof. rewrite <- (nat_tle (fst a)), <- (nat_tle (snd a)), <- andb_true_iff. change (tle a b) with (tle (fst a) (fst b) && tle (snd a) (snd b)). reflexivity. Qed.
Lemma c37_pair_lt_iff a b : c37_pair_lt a b = true <-> fst a < fst b \/ fst a = fst b /\ snd a < snd b.
Proof. unfold c37_pair_lt. rewrite orb_true_iff, andb_true_iff, Nat.ltb_lt, Nat.eqb_eq, Nat.ltb_lt. reflexivity. Qed.
Lemma c37_pair_le_iff a b : c37_pair_le a b = true <-> fst a < fst b \/ fst a = fst b /\ snd a <= snd b.
Proof. unfold c37_pair_le. rewrite orb_true_iff, andb_true_iff, Nat.ltb_lt, Nat.eqb_eq, Nat.leb_le. reflexivity. Qed.
Lemma c37_pairs_compatible (cmpf : nat * nat -> nat * nat -> bool) : cmpf = c37_pair_lt \/ cmpf = c37_pair_le -> compatible cmpf c37_closure.
Proof.
  intros Hc. constructor.
  - intros f t i H1 H2. apply (proj1 (c37_pair_tle _ _)) in H1. destruct Hc as [->| ->].
    + apply (proj1 (c37_pair_lt_iff _ _)) in H2. apply c37_pair_lt_iff. lia.
    + apply (proj1 (c37_pair_le_iff _ _)) in H2. apply c37_pair_le_iff. lia.
  - intros e. apply c37_beyond1, c37_pair_tle. simpl. lia.
  - intros e e' H t Ht. apply (proj1 (c37_pair_tle _ _)) in H. apply (proj1 (c37_beyond1 _ _)), (proj1 (c37_pair_tle _ _)) in Ht. apply c37_beyond1, c37_pair_tle. simpl in *. lia.
  - assert (G : forall e i t t', tle e i = true -> indistinct (c37_closure e) t t' -> cmpf t i = true -> cmpf t' i = true).
    { intros e i t t' H1 H2 H. apply (proj1 (c37_pair_tle _ _)) in H1.
      assert (K : forall u, fst e - 1 <= fst u -> snd e - 1 <= snd u -> fst t <= fst u -> snd t <= snd u -> fst t' <= fst u /\ snd t' <= snd u).
      { intros u U1 U2 U3 U4. apply c37_pair_tle. rewrite <- (H2 u); [apply c37_pair_tle; auto|apply c37_beyond1, c37_pair_tle; simpl; auto]. }
      destruct Hc as [->| ->].
      - apply (proj1 (c37_pair_lt_iff _ _)) in H. apply c37_pair_lt_iff. destruct H as [H|[Ha Hb]].
        + destruct (K (fst i - 1, Nat.max (snd t) (snd e))); cbn [fst snd] in *; lia.
        + destruct (K (fst i, snd i - 1)); cbn [fst snd] in *; lia.
      - apply (proj1 (c37_pair_le_iff _ _)) in H. apply c37_pair_le_iff. destruct H as [H|[Ha Hb]].
        + destruct (K (fst i - 1, Nat.max (snd t) (snd e))); cbn [fst snd] in *; lia.
        + destruct (K (fst i, snd i)); simpl in *; lia. }
    intros e i t t' H1 H2. assert (H2' : indistinct (c37_closure e) t' t) by (intros u Hu; rewrite (H2 u Hu); auto).
    pose proof (G e i t t' H1 H2). pose proof (G e i t' t H1 H2'). destruct (cmpf t i), (cmpf t' i); auto; intuition congruence.
Qed.
Theorem c37_pairs : complementary c37_pair_lt c37_pair_le /\ compatible c37_pair_lt c37_closure /\ compatible c37_pair_le c37_closure.
Proof.
  split; [|split; apply c37_pairs_compatible; auto]. intros a b. apply Bool.eq_iff_eq_true. rewrite negb_true_iff, <- not_true_iff_false, c37_pair_lt_iff, c37_pair_le_iff. lia.
Qed.
Print Assumptions c37_nat_strictly.
Print Assumptions c37_nat_weakly.
Print Assumptions c37_strictly_needs_earlier_refuted.
Print Assumptions c37_pairs.

(** ** A concrete run: over the history of SpineProps, merged and compacted, one proposal is answered and one is kept back. *)
Definition c37_ff (e : nat) : list nat := [e - 1].
Definition c37_out (k v1 v2 : nat) : nat * (nat * nat) := (k, (v1, v2)).
Definition c37_msgs : list (nat * list (nat * nat * nat * nat * Z)) := [(5, [(1, 100, 6, 5, 2%Z)]); (6, [(2, 200, 6, 6, 1%Z)])].
Definition c37_run := h_activate (D:=nat*(nat*nat)) (R3:=Z) ov_batch_ops ov_ops ovc_new c37_ff (fun a b => a <? b) c37_out (sd_spine (c21_side1 [5])) c37_msgs [6] [6] [] (h_start ([3], [4])).
Example c37_run_ok : option_map (fun x => (h_stash (fst (fst x)), snd (fst x), snd x)) c37_run =
  Some ([(6, [(2, 200, 6, 6, 1%Z)])], [(5, [((1, (100, 11)), 6, 5, 2%Z)])], false).
Proof. vm_compute. reflexivity. Qed.
Example c37_reaches : exists w : hworld (OrdValBatch nat nat nat Z) (OrdValMerger nat nat nat Z) nat nat (nat * (nat * nat)) nat Z Z,
  hreaches ov_batch_ops ov_contents ov_laws ov_ops ovc_new c37_ff (fun a b => a <? b) c37_out ([3], [4]) w /\
  h_produced w = [((1, (100, 11)), 6, 5, 2%Z)] /\ h_owed w = [(2, 200, 6, 6, 1%Z)] /\ hw_asked w = flat_map snd c37_msgs /\ sd_hist (hw_in w) = c14_h.
Proof.
  assert (HB : forall (a b t : nat), a <= b -> beyond [b] t -> beyond [a] t).
  { intros a b t Hab (f & [<-|[]] & Hf). exists a. split; [left; auto|]. eapply tle_trans; [|exact Hf]. apply nat_tle; auto. }
  pose proof c37_run_ok as R. destruct c37_run as [[[h' outs] again]|] eqn:En; [|discriminate]. cbn [option_map fst snd] in R. injection R as Eh Eo Ea. subst outs again.
  eexists. split; [eapply hr_step; [apply hr_start|eapply (hs_activate _ _ _ _ _ _ _ _ (c21_side1 [5]) (c21_side1 [6]) [5] [6] [] (h_start ([3], [4])) h' [] c37_msgs [] [6] [])]|].
  - unfold hstarts. cbn [hw_in hw_front hw_asked hw_op hw_out c21_side1 sd_logical sd_physical sd_upper fst snd].
    split; [exists 1, c14_ops; split; [apply c14_history|split; [vm_compute; reflexivity|split; constructor]]|]. split; [split; auto|].
    split; [intros e t [<-|[]]; apply HB; simpl; lia|]. auto.
  - exists []. split; [reflexivity|]. split; [reflexivity|]. split; [constructor|]. split; [intros t; apply HB; lia|constructor].
  - repeat constructor; try (exists 5; split; [left; reflexivity|reflexivity]).
  - intros t. apply HB. lia.
  - exact En.
  - cbn [h_produced h_owed hw_out hw_op hw_asked hw_in]. unfold h_produced, h_owed. cbn [hw_out hw_op]. rewrite Eh. repeat split.
Qed.

(** ** AltNeu: a change to one input of a multilinear query is computed against the inputs before it strictly ([neu]) or not strictly ([alt]) *)
(** The order of the times: an update entered at [neu tb] is before a change at [alt ta] exactly when it is strictly earlier, and one entered at [alt tb] exactly
    when it is at or before it. *)
Theorem c37_altneu_order {T} {TT : Time T} (ta tb : T) :
  (an_le eqb tle (neu tb) (alt ta) = true <-> tle tb ta = true /\ tb <> ta) /\ (an_le eqb tle (alt tb) (alt ta) = true <-> tle tb ta = true).
Proof.
  unfold an_le, neu, alt. cbn [fst snd]. destruct (eqb_spec tb ta) as [->|Hne]; cbn [implb orb negb].
  - split; [split; [discriminate|intros [_ H]; congruence]|split; [intros _; apply tle_refl|auto]].
  - split; [split; [auto|tauto]|reflexivity].
Qed.
(** For times in a total order, the two delta queries of a join, brought back, make up the join. *)
Theorem c37_altneu_total_order {K V1 V2 D T R1 R2 R3 : Type} {OK : Ord K} {OV1 : Ord V1} {OV2 : Ord V2} {OD : Ord D} {TT : Time T} {TO : TotalTime T}
  {D1 : Diff R1} {D2 : Diff R2} {D3 : Diff R3} {A1 : Abelian R1} {A2 : Abelian R2} {A3 : Abelian R3} {MU : Multiply R1 R2 R3}
  (result : K -> V1 -> V2 -> list D) (c1 : list (K * V1 * T * R1)) (c2 : list (K * V2 * T * R2)) :
  same_weights (A:=D*T)
    (integrate (join_updates (TT:=Time_altneu) (MU:=MU) result (differentiate c1) (enter_neu c2)) ++
     integrate (join_updates (TT:=Time_altneu) (MU:=MU) result (enter_alt c1) (differentiate c2)))
    (join_updates (MU:=MU) result c1 c2).
Proof. apply delta_query_ok. Qed.
(** For times in a lattice they need not: two changes at times that are not ordered are missed by both. *)
Theorem c37_altneu_partial_order_refuted : exists (c1 c2 : list (nat * nat * (nat * nat) * Z)),
  ~ same_weights (A:=(nat*(nat*nat))*(nat*nat))
    (integrate (join_updates (TT:=Time_altneu) (fun k v1 v2 => [(k, (v1, v2))]) (differentiate c1) (enter_neu c2)) ++
     integrate (join_updates (TT:=Time_altneu) (fun k v1 v2 => [(k, (v1, v2))]) (enter_alt c1) (differentiate c2)))
    (join_updates (fun k v1 v2 => [(k, (v1, v2))]) c1 c2).
Proof.
  exists [(1, 10, (0, 1), 1%Z)], [(1, 20, (1, 0), 1%Z)]. intros H. specialize (H ((1, (10, 20)), (1, 1))). vm_compute in H. discriminate.
Qed.
Print Assumptions c37_altneu_order.
Print Assumptions c37_altneu_total_order.
Print Assumptions c37_altneu_partial_order_refuted.
