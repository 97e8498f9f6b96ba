(** C58: the second form of the half join, which keeps proposals in blobs. *)
From Verif Require Import Base.Arrays Base.Collections Model.OrdNeuM Proofs.SpineP Proofs.BilinearP Proofs.ReadableInstP Proofs.HalvesP Proofs.HalfJoin2P Props.OrdNeuProps Props.SpineProps Props.JoinProps Props.HalfJoinProps.

Section AnyBatches.
Context {B M C K V1 V2 D T R1 R2 R3 : Type} {OK : Ord K} {OV1 : Ord V1} {OV2 : Ord V2} {OD : Ord D} {TT : Time T}
  {D1 : Diff R1} {D2 : Diff R2} {D3 : Diff R3} {MU : Multiply R1 R2 R3}
  (ops : BatchOps B M T) (contents : B -> list (K * V2 * T * R2)) (laws : BatchLaws (D:=K*V2) ops contents)
  (cops : CursorOps B C K V2 T R2) (new : C) (HR : readable ops contents laws cops new)
  (frontier_func : T -> list T) (comparison : T -> T -> bool) (output_func : K -> V1 -> V2 -> D)
  (HC : compatible comparison frontier_func) (HO : follows_total_order comparison) (may_answer : list bool -> Prop)
  (handle : list T * list T).
Notation world := (h2world B M K V1 D T R1 R3).
Notation reaches := (h2reaches ops contents laws cops new frontier_func comparison output_func may_answer (MU:=MU) handle).
Notation activate := (h2_activate ops cops new frontier_func comparison output_func (MU:=MU)).

(** Whatever the schedule, and wherever the operator yielded: what was sent, and the answers to the proposals kept back, make up the
    answers to all proposals delivered. *)
Theorem c58_half_join (w : world) : reaches w ->
  same_weights (A:=D*T*T) (h2_produced w ++ answers (MU:=MU) comparison output_func (kept_back (h2w_op w)) (h2_input contents w))
    (answers (MU:=MU) comparison output_func (h2w_asked w) (h2_input contents w)).
Proof.
  intros H. destruct (h2reaches_inv ops contents laws cops new HR frontier_func comparison output_func HC HO may_answer handle w H) as (A & HI).
  eapply same_weights_trans; [|apply same_weights_sym, answers_congr_l, (h2i_asked _ _ _ _ _ _ _ _ _ HI)].
  rewrite answers_app_l. apply same_weights_app; [apply (h2i_produced _ _ _ _ _ _ _ _ _ HI)|apply same_weights_refl].
Qed.
(** So when no proposal is kept back, each has been answered once. *)
Theorem c58_half_join_complete (w : world) : reaches w -> kept_back (h2w_op w) = [] ->
  same_weights (A:=D*T*T) (h2_produced w) (answers (MU:=MU) comparison output_func (h2w_asked w) (h2_input contents w)).
Proof. intros H E. pose proof (c58_half_join w H) as G. rewrite E in G. cbn [answers flat_map] in G. rewrite app_nil_r in G. exact G. Qed.

Section Activation.
Variables (w : world) (msgs1 : list (T * list (K * V1 * T * T * R1))) (msgs2 : list (T * list B)) (F' F2 : list T) (s' : side B M T) (ys : list bool).
Hypothesis H : reaches w.
Hypothesis HD : delivers contents (h2w_in w) msgs2 F2 s'.
Hypothesis Hm : Forall (fun m => beyond (h2w_front w) (fst m) /\ well_timed m) msgs1.
Hypothesis HF : forall t, beyond F' t -> beyond (h2w_front w) t.
Hypothesis Hy : may_answer ys.

(** The operator has nothing it could work on at once; it asks to be activated again exactly when it has. *)
Definition nothing_ready (h : h2state K V1 T R1) : Prop := forall b, In b (h2_blobs h) -> b_stuck b = length (b_data b).

(** An activation never panics. It does not ask for another if it was not asked to yield. And if nothing was ready before it, and it does not ask for
    another, then each proposal kept back has a time before its initial time in the frontier of the arranged input. *)
Theorem c58_half_join_progress :
  exists h' outs again, activate (sd_spine (h2w_in w)) msgs1 F' F2 ys (h2w_op w) = Some (h', outs, again) /\
    (Forall (eq false) ys -> again = false) /\ (again = false <-> nothing_ready h') /\
    (nothing_ready (h2w_op w) -> again = false -> forall p, In p (kept_back h') -> exists f, In f F2 /\ comparison f (snd (fst p)) = true).
Proof.
  destruct (h2reaches_inv ops contents laws cops new HR frontier_func comparison output_func HC HO may_answer handle w H) as (A & HI).
  destruct (activate2_ok ops contents laws cops new HR frontier_func comparison output_func HC HO may_answer w A s' msgs1 msgs2 F' F2 ys HI HD Hm HF Hy)
    as (h' & outs & again & A' & E & HI' & _ & _ & Hid & Hn & Hb).
  exists h', outs, again. split; [exact E|]. split; [exact Hn|]. split; [rewrite Hid, Forall_forall; reflexivity|].
  intros Hr Ha p Hp. assert (Hb' : Forall (all_blocked comparison F2) (h2_blobs h')) by (apply Hb, Forall_forall, Hr).
  unfold kept_back in Hp. apply in_map_iff in Hp as (e & <- & He). apply in_flat_map in He as (b & Hi & He). apply Hid in Ha. rewrite Forall_forall in Ha, Hb'.
  specialize (Hb' b Hi). unfold all_blocked in Hb'. rewrite (idle_ready b (Ha b Hi)) in Hb'. cbn [skipn] in Hb'. rewrite Forall_forall in Hb'. exact (Hb' e He).
Qed.
(** So if it is never asked to yield, as in [half_join], only such proposals are ever kept back, and it never asks to be activated. *)
Theorem c58_half_join_progress_without_yields : (forall ys, may_answer ys -> Forall (eq false) ys) ->
  exists h' outs, activate (sd_spine (h2w_in w)) msgs1 F' F2 ys (h2w_op w) = Some (h', outs, false) /\
    forall p, In p (kept_back h') -> exists f, In f F2 /\ comparison f (snd (fst p)) = true.
Proof.
  intros Hn. destruct (h2reaches_inv ops contents laws cops new HR frontier_func comparison output_func HC HO may_answer handle w H) as (A & HI).
  assert (Hr : nothing_ready (h2w_op w)). { pose proof (h2i_idle _ _ _ _ _ _ _ _ _ HI Hn) as G. rewrite Forall_forall in G. exact G. }
  destruct c58_half_join_progress as (h' & outs & again & E & G1 & _ & G3). rewrite (G1 (Hn ys Hy)) in *. exists h', outs. split; [exact E|]. apply G3; auto.
Qed.
(** With the arranged input closed, none is. *)
Corollary c58_half_join_finishes h' outs : nothing_ready (h2w_op w) -> F2 = [] ->
  activate (sd_spine (h2w_in w)) msgs1 F' F2 ys (h2w_op w) = Some (h', outs, false) -> kept_back h' = [].
Proof.
  intros Hr EF E. destruct c58_half_join_progress as (h1 & o1 & a1 & E1 & _ & _ & G). rewrite E in E1. injection E1 as <- <- <-. specialize (G Hr eq_refl).
  destruct (kept_back h') as [|p l]; auto. destruct (G p (or_introl eq_refl)) as (f & Hf & _). rewrite EF in Hf. destruct Hf.
Qed.
(** The operator sends, and keeps, only with capabilities that its input or what it kept entitle it to; and what it sends is at or after
    the time it is sent at. *)
Theorem c58_half_join_capabilities h' outs again : activate (sd_spine (h2w_in w)) msgs1 F' F2 ys (h2w_op w) = Some (h', outs, again) ->
  (forall cap us, In (cap, us) outs -> beyond (h2w_front w ++ capabilities (h2w_op w)) cap /\
     forall d t initial r, In (d, t, initial, r) us -> tle cap initial = true /\ tle initial t = true) /\
  (forall cap, In cap (capabilities h') -> beyond (h2w_front w ++ capabilities (h2w_op w)) cap).
Proof.
  intros E0. destruct (h2reaches_inv ops contents laws cops new HR frontier_func comparison output_func HC HO may_answer handle w H) as (A & HI).
  destruct (activate2_ok ops contents laws cops new HR frontier_func comparison output_func HC HO may_answer w A s' msgs1 msgs2 F' F2 ys HI HD Hm HF Hy)
    as (h1 & o1 & a1 & A' & E & HI' & Ho & Hs & _). rewrite E0 in E. injection E as <- <- <-. pose proof (h2i_out _ _ _ _ _ _ _ _ _ HI') as Hu. cbn [h2w_out] in Hu.
  apply Forall_app in Hu as [_ Hu]. rewrite Forall_forall in Ho, Hu. split.
  - intros cap us Hi. split; [exact (Ho _ Hi)|]. intros d t i r Hx. specialize (Hu _ Hi). cbn [fst snd] in Hu. rewrite Forall_forall in Hu. exact (Hu _ Hx).
  - intros cap Hi. apply Hs, beyond_in, Hi.
Qed.
(** It holds a capability at or before the initial time of each proposal it keeps back, and holds no earlier capability than those times need: so
    its output frontier moves on with the proposals it has answered. *)
Theorem c58_half_join_holds h' outs again : activate (sd_spine (h2w_in w)) msgs1 F' F2 ys (h2w_op w) = Some (h', outs, again) ->
  forall t, beyond (capabilities h') t <-> exists p, In p (kept_back h') /\ tle (snd (fst p)) t = true.
Proof.
  intros E0. destruct (h2reaches_inv ops contents laws cops new HR frontier_func comparison output_func HC HO may_answer handle w H) as (A & HI).
  destruct (activate2_ok ops contents laws cops new HR frontier_func comparison output_func HC HO may_answer w A s' msgs1 msgs2 F' F2 ys HI HD Hm HF Hy)
    as (h1 & o1 & a1 & A' & E & HI' & _). rewrite E0 in E. injection E as <- <- <-. pose proof (h2i_blobs _ _ _ _ _ _ _ _ _ HI') as Hb. cbn [h2w_op] in Hb.
  rewrite Forall_forall in Hb. intros t. unfold capabilities, kept_back. split.
  - intros (f & Hf & Hl). apply in_flat_map in Hf as (b & Hi & Hf). destruct (Hb b Hi) as [Ho _]. destruct (proj1 (bo_caps _ _ _ Ho t)) as (g & Hg & Hgl); [exists f; auto|].
    apply in_map_iff in Hg as (e & <- & He). exists (proposal_of e). rewrite <- pinit_of in Hgl. split; [|exact Hgl]. apply in_map, in_flat_map. eauto.
  - intros (p & Hp & Hl). apply in_map_iff in Hp as (e & <- & He). apply in_flat_map in He as (b & Hi & He). destruct (Hb b Hi) as [Ho _].
    change (snd (fst (proposal_of e))) with (pinit (proposal_of e)) in Hl. rewrite pinit_of in Hl.
    destruct (proj2 (bo_caps _ _ _ Ho t)) as (g & Hg & Hgl); [exists (initial_of e); split; [apply in_map, He|exact Hl]|]. exists g. split; [apply in_flat_map; eauto|exact Hgl].
Qed.
End Activation.
End AnyBatches.
Print Assumptions c58_half_join.
Print Assumptions c58_half_join_complete.
Print Assumptions c58_half_join_progress.
Print Assumptions c58_half_join_progress_without_yields.
Print Assumptions c58_half_join_finishes.
Print Assumptions c58_half_join_capabilities.
Print Assumptions c58_half_join_holds.

(** ** Two half joins make a join. *)
Theorem c58_two_half_joins {B1 M1 C1 B2 M2 C2 K V1 V2 D T R1 R2 R3 : Type} {OK : Ord K} {OV1 : Ord V1} {OV2 : Ord V2} {OD : Ord D} {TT : Time T}
  {D1 : Diff R1} {D2 : Diff R2} {D3 : Diff R3} (MU : Multiply R1 R2 R3) (MU' : Multiply R2 R1 R3)
  (ops1 : BatchOps B1 M1 T) (contents1 : B1 -> list (K * V1 * T * R1)) (laws1 : BatchLaws (D:=K*V1) ops1 contents1)
  (ops2 : BatchOps B2 M2 T) (contents2 : B2 -> list (K * V2 * T * R2)) (laws2 : BatchLaws (D:=K*V2) ops2 contents2)
  (cops1 : CursorOps B1 C1 K V1 T R1) (new1 : C1) (cops2 : CursorOps B2 C2 K V2 T R2) (new2 : C2)
  (ff : T -> list T) (strictly weakly : T -> T -> bool) (result : K -> V1 -> V2 -> D) (Y1 Y2 : list bool -> Prop) (h1 h2 : list T * list T)
  (w1 : h2world B2 M2 K V1 D T R1 R3) (w2 : h2world B1 M1 K V2 D T R2 R3) :
  readable ops1 contents1 laws1 cops1 new1 -> readable ops2 contents2 laws2 cops2 new2 ->
  (forall a b, dmul (Multiply:=MU') b a = dmul (Multiply:=MU) a b) -> complementary strictly weakly -> compatible strictly ff -> compatible weakly ff ->
  follows_total_order strictly -> follows_total_order weakly ->
  h2reaches ops2 contents2 laws2 cops2 new2 ff strictly result Y1 (MU:=MU) h1 w1 ->
  h2reaches ops1 contents1 laws1 cops1 new1 ff weakly (fun k v2 v1 => result k v1 v2) Y2 (MU:=MU') h2 w2 ->
  (* each is given the changes of what the other looks things up in *)
  same_weights (A:=K*V1*T*T) (h2w_asked w1) (proposals_of (h2_input contents1 w2)) -> same_weights (A:=K*V2*T*T) (h2w_asked w2) (proposals_of (h2_input contents2 w1)) ->
  kept_back (h2w_op w1) = [] -> kept_back (h2w_op w2) = [] ->
  same_weights (A:=D*T) (at_their_times (h2_produced w1 ++ h2_produced w2))
    (join_updates (MU:=MU) (fun k v1 v2 => [result k v1 v2]) (h2_input contents1 w2) (h2_input contents2 w1)).
Proof.
  intros HR1 HR2 HM HO HC1 HC2 HT1 HT2 G1 G2 A1 A2 O1 O2.
  eapply same_weights_trans; [|apply (c37_two_half_joins_pairs MU MU' strictly weakly result); auto]. unfold at_their_times at 1. rewrite map_app. fold (at_their_times (h2_produced w1)). fold (at_their_times (h2_produced w2)).
  apply same_weights_app; apply at_their_times_congr.
  - eapply same_weights_trans; [apply (c58_half_join_complete ops2 contents2 laws2 cops2 new2 HR2 ff strictly result HC1 HT1 Y1 h1 w1 G1 O1)|apply answers_congr_l; exact A1].
  - eapply same_weights_trans; [apply (c58_half_join_complete ops1 contents1 laws1 cops1 new1 HR1 ff weakly _ HC2 HT2 Y2 h2 w2 G2 O2)|apply answers_congr_l; exact A2].
Qed.
Print Assumptions c58_two_half_joins.

(** ** Comparisons that follow the total order, beside those of C37: integers, and pairs of integers in the order of tuples *)
Theorem c58_nat : follows_total_order (T:=nat) (fun a b => a <? b) /\ follows_total_order (T:=nat) (fun a b => a <=? b).
Proof.
  assert (HL : forall a b : nat, le a b -> (a <= b)%nat). { intros a b H. unfold le in H. cbn [cmp Ord_nat] in H. apply Nat.compare_le_iff. exact H. }
  split; constructor; intros; repeat match goal with H : le _ _ |- _ => apply HL in H end; rewrite ?Nat.ltb_lt, ?Nat.leb_le in *; lia.
Qed.
Theorem c58_pairs : follows_total_order c37_pair_lt /\ follows_total_order c37_pair_le.
Proof.
  assert (HL : forall a b : nat * nat, le a b -> fst a < fst b \/ fst a = fst b /\ snd a <= snd b).
  { intros [a1 a2] [b1 b2] H. apply le_lteq in H as [H|H]; [|inversion H; subst; simpl; lia]. apply lt_pair in H. cbn [fst snd]. destruct H as [H|[-> H]]; unfold lt in H; cbn [cmp Ord_nat] in H; apply Nat.compare_lt_iff in H; lia. }
  split; constructor; intros; repeat match goal with H : le _ _ |- _ => apply HL in H end; rewrite ?c37_pair_lt_iff, ?c37_pair_le_iff in *; lia.
Qed.
Print Assumptions c58_nat.
Print Assumptions c58_pairs.

(** ** A concrete run, over the history of SpineProps: one proposal is answered and two are kept back, one of which the next activation answers. *)
Definition c58_msgs : list (nat * list (nat * nat * nat * nat * Z)) := [(5, [(1, 100, 6, 5, 2%Z); (2, 300, 8, 7, 1%Z)]); (6, [(2, 200, 9, 8, 1%Z)])].
Definition c58_lt (a b : nat) : bool := a <? b.
Definition c58_first (ys : list bool) := h2_activate (D:=nat*(nat*nat)) (R3:=Z) ov_batch_ops ov_ops ovc_new c37_ff c58_lt c37_out (sd_spine (c21_side1 [5])) c58_msgs [6] [6] ys (h2_start ([3], [4])).
Definition c58_second (F1 F2 : list nat) (ys : list bool) := ' (h, _, _) <- c58_first ys;
  h2_activate (D:=nat*(nat*nat)) (R3:=Z) ov_batch_ops ov_ops ovc_new c37_ff c58_lt c37_out (sd_spine (c21_side1 [6])) [] F1 F2 [] h.
Example c58_first_ok : option_map (fun x => (kept_back (fst (fst x)), snd (fst x), capabilities (fst (fst x)), snd x)) (c58_first []) =
  Some ([(2, 300, 8, 7, 1%Z); (2, 200, 9, 8, 1%Z)], [(5, [((1, (100, 11)), 6, 5, 2%Z)])], [7], false).
Proof. vm_compute. reflexivity. Qed.
Example c58_second_ok : option_map (fun x => (kept_back (fst (fst x)), snd (fst x), capabilities (fst (fst x)), snd x)) (c58_second [7] [7] []) =
  Some ([(2, 200, 9, 8, 1%Z)], [(7, [((2, (300, 10)), 8, 7, 2%Z)])], [8], false).
Proof. vm_compute. reflexivity. Qed.
Definition c58_world := h2world (OrdValBatch nat nat nat Z) (OrdValMerger nat nat nat Z) nat nat (nat * (nat * nat)) nat Z Z.
Lemma c58_beyond (a b t : nat) : a <= b -> beyond [b] t -> beyond [a] t.
Proof. intros Hab (f & [<-|[]] & Hf). exists a. split; [left; auto|]. eapply tle_trans; [|exact Hf]. apply nat_tle; auto. Qed.
(** the world after the first activation *)
Lemma c58_after_first (Y : list bool -> Prop) ys h outs again : Y ys -> c58_first ys = Some (h, outs, again) ->
  h2reaches ov_batch_ops ov_contents ov_laws ov_ops ovc_new c37_ff c58_lt c37_out Y ([3], [4])
    ({| h2w_in := c21_side1 [6]; h2w_front := [6]; h2w_asked := flat_map snd c58_msgs; h2w_op := h; h2w_out := outs |} : c58_world).
Proof.
  intros Hys E. eapply h2r_step; [apply h2r_start|eapply (h2s_activate _ _ _ _ _ _ _ _ _ (c21_side1 [5]) (c21_side1 [6]) [5] [6] [] (h2_start ([3], [4])) h [] c58_msgs [] [6] ys outs again)].
  - unfold h2starts. cbn [h2w_in h2w_front h2w_asked h2w_op h2w_out c21_side1 sd_logical sd_physical sd_upper fst snd].
    split; [exists 1, c14_ops; split; [apply c14_history|split; [vm_compute; reflexivity|split; constructor]]|]. split; [split; auto|].
    split; [intros e t [<-|[]]; apply c58_beyond; simpl; lia|]. auto.
  - exists []. split; [reflexivity|]. split; [reflexivity|]. split; [constructor|]. split; [intros t; apply c58_beyond; lia|constructor].
  - repeat constructor; try (exists 5; split; [left; reflexivity|reflexivity]).
  - intros t. apply c58_beyond. lia.
  - exact Hys.
  - exact E.
Qed.
Example c58_reaches : exists w : c58_world,
  h2reaches ov_batch_ops ov_contents ov_laws ov_ops ovc_new c37_ff c58_lt c37_out (Forall (eq false)) ([3], [4]) w /\ nothing_ready (h2w_op w) /\
  h2_produced w = [((1, (100, 11)), 6, 5, 2%Z)] /\ kept_back (h2w_op w) = [(2, 300, 8, 7, 1%Z); (2, 200, 9, 8, 1%Z)] /\ h2w_asked w = flat_map snd c58_msgs /\ sd_hist (h2w_in w) = c14_h.
Proof.
  pose proof c58_first_ok as R. destruct (c58_first []) as [[[h outs] again]|] eqn:En; [|discriminate]. cbn [option_map fst snd] in R. injection R as Eh Eo Ec Ea.
  eexists. split; [apply (c58_after_first (Forall (eq false)) [] h outs again); [constructor|exact En]|]. unfold h2_produced. cbn [h2w_op h2w_out h2w_asked h2w_in]. rewrite Eh, Eo. split; [|repeat split].
  vm_compute in En. injection En as <- _ _. intros b [<-|[]]. reflexivity.
Qed.

(** ** When the operator is asked to yield, it may stop for good with work left: here both inputs are closed, two proposals that could be answered are kept
    back, with a capability, and the operator does not ask to be activated again.  It looks for proposals that became ready only in blobs that have no
    other ready ones, and it had some. *)
Theorem c58_half_join_stalls_refuted : exists (w : c58_world) s' h' outs,
  h2reaches ov_batch_ops ov_contents ov_laws ov_ops ovc_new c37_ff c58_lt c37_out (fun _ => True) ([3], [4]) w /\
  delivers ov_contents (h2w_in w) [] [] s' /\
  h2_activate ov_batch_ops ov_ops ovc_new c37_ff c58_lt c37_out (sd_spine (h2w_in w)) [] [] [] [] (h2w_op w) = Some (h', outs, false) /\
  kept_back h' = [(2, 300, 8, 7, 1%Z); (2, 200, 9, 8, 1%Z)] /\ capabilities h' = [7].
Proof.
  assert (R : option_map (fun x => (kept_back (fst (fst x)), capabilities (fst (fst x)), snd x)) (c58_second [] [] [true]) = Some ([(2, 300, 8, 7, 1%Z); (2, 200, 9, 8, 1%Z)], [7], false)) by (vm_compute; reflexivity).
  unfold c58_second in R. destruct (c58_first [true]) as [[[h outs] again]|] eqn:En; [|discriminate].
  destruct (h2_activate (D:=nat*(nat*nat)) (R3:=Z) ov_batch_ops ov_ops ovc_new c37_ff c58_lt c37_out (sd_spine (c21_side1 [6])) [] [] [] [] h) as [[[h' outs'] again']|] eqn:E2; [|discriminate].
  cbn [option_map fst snd] in R. injection R as Eh Ec Ea. subst again'.
  exists {| h2w_in := c21_side1 [6]; h2w_front := [6]; h2w_asked := flat_map snd c58_msgs; h2w_op := h; h2w_out := outs |}, (c21_side1 []), h', outs'.
  split; [apply (c58_after_first (fun _ => True) [true] h outs again I En)|]. split; [|split; [exact E2|auto]].
  exists []. split; [reflexivity|]. split; [reflexivity|]. split; [constructor|]. split; [intros t Ht; destruct (beyond_nil _ Ht)|constructor].
Qed.
Print Assumptions c58_half_join_stalls_refuted.

(** ** The comparison has to follow the total order: one that is fit for the first form of the half join (C37), here the partial order of pairs, is not for this
    one.  It looks at the least time of the frontier only, and answers a proposal that an update at another time of the frontier still concerns. *)
Definition c58_le (a b : nat * nat) : bool := tle a b.
Definition c58_pb : OrdValBatch nat nat (nat * nat) Z := ovb_seal [[((1, 10, (3, 0)), 1%Z)]] {| d_lower := [(0, 0)]; d_upper := [(9, 9)]; d_since := [(0, 0)] |}.
Definition c58_pair_side (bs q : list (OrdValBatch nat nat (nat * nat) Z)) (up F : list (nat * nat)) : side (OrdValBatch nat nat (nat * nat) Z) (OrdValMerger nat nat (nat * nat) Z) (nat * nat) :=
  {| sd_spine := match s_run ov_batch_ops (with_effort 1) (map SInsert bs) with Some s => s | None => with_effort 0 end;
     sd_hist := bs; sd_upper := up; sd_logical := [(0, 0)]; sd_physical := [(0, 0)]; sd_flight := q; sd_front := F |}.
Definition c58_pair_world := h2world (OrdValBatch nat nat (nat * nat) Z) (OrdValMerger nat nat (nat * nat) Z) nat nat (nat * (nat * nat)) (nat * nat) Z Z.
Theorem c58_partial_order_refuted : compatible c58_le (fun e => [e]) /\ exists w : c58_pair_world,
  h2reaches ov_batch_ops ov_contents ov_laws ov_ops ovc_new (fun e => [e]) c58_le c37_out (Forall (eq false)) ([(0, 0)], [(0, 0)]) w /\ kept_back (h2w_op w) = [] /\
  h2_produced w = [] /\ answers (MU:=Multiply_Z) c58_le c37_out (h2w_asked w) (h2_input ov_contents w) = [((1, (100, 10)), (4, 1), (4, 1), 1%Z)].
Proof.
  split.
  { unfold c58_le. constructor.
    - intros f t i H1 H2. eapply tle_trans; eauto.
    - intros e. apply c37_beyond1, tle_refl.
    - intros e e' H t Ht. apply (proj1 (c37_beyond1 _ _)) in Ht. apply c37_beyond1. eapply tle_trans; eauto.
    - intros e i t t' H1 H2. exact (H2 i (proj2 (c37_beyond1 _ _) H1)). }
  assert (Z0 : forall t : nat * nat, beyond [(0, 0)] t) by (intros t; apply c37_beyond1, c37_pair_tle; simpl; lia).
  set (msgs := [((4, 1), [(1, 100, (4, 1), (4, 1), 1%Z)])]).
  destruct (h2_activate (D:=nat*(nat*nat)) (R3:=Z) ov_batch_ops ov_ops ovc_new (fun e => [e]) c58_le c37_out (sd_spine (c58_pair_side [] [] [(0, 0)] [(0, 0)])) msgs [] [(0, 5); (3, 0)] [] (h2_start ([(0, 0)], [(0, 0)]))) as [[[h outs] again]|] eqn:E; [|vm_compute in E; discriminate].
  assert (Eh : kept_back h = [] /\ outs = [((4, 1), [])] /\ h2_trace h = None) by (vm_compute in E; injection E as <- <- _; auto). destruct Eh as (Ek & Eo & Et).
  exists {| h2w_in := c58_pair_side [c58_pb] [c58_pb] [(9, 9)] [(0, 5); (3, 0)]; h2w_front := []; h2w_asked := [] ++ flat_map snd msgs; h2w_op := h; h2w_out := [] ++ outs |}.
  split; [|unfold h2_produced; cbn [h2w_op h2w_out h2w_asked]; rewrite Ek, Eo; split; [reflexivity|split; [reflexivity|vm_compute; reflexivity]]].
  eapply h2r_step; [eapply h2r_step; [apply h2r_start|eapply (h2s_activate _ _ _ _ _ _ _ _ _ (c58_pair_side [] [] [(0, 0)] [(0, 0)]) (c58_pair_side [] [] [(0, 0)] [(0, 5); (3, 0)]) [(0, 0)] [] [] (h2_start ([(0, 0)], [(0, 0)])) h [] msgs [] [(0, 5); (3, 0)] [] outs again)]|].
  - unfold h2starts. cbn [h2w_in h2w_front h2w_asked h2w_op h2w_out c58_pair_side sd_logical sd_physical sd_upper fst snd].
    split; [exists 1, []; split; [exact (sh_nil _ _ _)|split; [vm_compute; reflexivity|split; constructor]]|]. split; [split; auto|]. split; [auto|]. auto.
  - exists []. split; [reflexivity|]. split; [reflexivity|]. split; [constructor|]. split; [intros t _; apply Z0|constructor].
  - constructor; [|constructor]. split; [apply Z0|]. constructor; [|constructor]. split; reflexivity.
  - intros t Ht. destruct (beyond_nil _ Ht).
  - constructor.
  - exact E.
  - apply h2s_env. unfold c58_pair_side. change [(9, 9)] with (upper_of ov_batch_ops c58_pb). change [c58_pb] with ([] ++ [c58_pb]) at 2 3.
    apply (se_insert _ _ _ _ _ [] [(0, 0)] [(0, 0)] [(0, 0)] [] [(0, 5); (3, 0)] c58_pb).
    + constructor.
      * apply (ovB_built [((1, 10, (3, 0)), 1%Z)]); auto. split; simpl; repeat constructor.
      * constructor; [intros y []|constructor].
      * constructor; [intros y []|constructor].
      * discriminate.
      * intros t _. apply Z0.
      * intros G. assert (Hb : beyond [(9, 9)] (0, 0)) by (apply G, Z0). apply (proj1 (c37_beyond1 _ _)), (proj1 (c37_pair_tle _ _)) in Hb. simpl in Hb. lia.
    + intros t. reflexivity.
    + auto.
    + repeat constructor. exists (3, 0). split; [right; left; reflexivity|reflexivity].
    + vm_compute. reflexivity.
Qed.
Print Assumptions c58_partial_order_refuted.
