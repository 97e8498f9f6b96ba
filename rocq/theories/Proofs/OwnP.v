(** An operator's own handle on the trace it writes, the handle number 0. *)
From Verif Require Export Spec.UpsertSpec Proofs.ArrangeP.
From Verif Require Import Base.Order.

Section Own.
Context {B M D T R : Type} {OD : Ord D} {TT : Time T} {DR : Diff R}.
Variable ops : BatchOps B M T. Variable contents : B -> list (D * T * R). Variable laws : BatchLaws ops contents.
Local Notation w_inv := (w_inv ops contents laws).
Definition own (w : World B M T) (F : list T) : Prop := exists a, agent_at w 0 = Some a /\ same_future (ag_logical a) F /\ same_future (ag_physical a) F.
(** the operator's handle *)
Lemma own_box w h a : w_inv w h -> agent_at w 0 = Some a -> exists bx, w_box w = Some bx /\ box_inv  ops contents laws bx (live w) h (w_upper w) /\ In a (live w).
Proof.
  intros I Ha. destruct (live_split _ _ _ Ha) as (l1 & l2 & El & _). assert (Hi : In a (live w)) by (unfold live; rewrite El, flat_map_app; apply in_or_app; right; left; auto).
  pose proof (wi_box _ _ _ _ _ I) as Hb. destruct (w_box w) as [bx|]; [exists bx; tauto|]. rewrite Hb in Hi. destruct Hi.
Qed.
Lemma set_logical_own w h a F : w_inv w h -> agent_at w 0 = Some a -> exists w', w_step ops w (CSetLogical 0 F) = Some (w', []) /\ w_inv w' h /\ w_writer w' = w_writer w /\
  agent_at w' 0 = Some {| ag_logical := antichain_join (ag_logical a) F; ag_physical := ag_physical a |}.
Proof.
  intros I Ha. destruct (AgentP.step_ok ops contents laws w h (CSetLogical 0 F) I Logic.I) as (w' & bs & E & _).
  destruct (reader_step ops contents laws w h (CSetLogical 0 F) w' bs I Logic.I E) as (-> & I' & Ew). exists w'. split; [exact E|split; [exact I'|split; [exact Ew|]]].
  destruct (own_box w h a I Ha) as (bx & Eb & _). cbn [w_step] in E. rewrite Eb, Ha in E. inversion E; subst. unfold agent_at in *. cbn [w_agents].
  rewrite nth_set_eq; [reflexivity|]. apply nth_error_Some. destruct (nth_error (w_agents w) 0); [discriminate|discriminate].
Qed.
Lemma set_physical_own w h a F : w_inv w h -> agent_at w 0 = Some a -> exists w', w_step ops w (CSetPhysical 0 F) = Some (w', []) /\ w_inv w' h /\ w_writer w' = w_writer w /\
  agent_at w' 0 = Some {| ag_logical := ag_logical a; ag_physical := antichain_join (ag_physical a) F |}.
Proof.
  intros I Ha. destruct (AgentP.step_ok ops contents laws w h (CSetPhysical 0 F) I Logic.I) as (w' & bs & E & _).
  destruct (reader_step ops contents laws w h (CSetPhysical 0 F) w' bs I Logic.I E) as (-> & I' & Ew). exists w'. split; [exact E|split; [exact I'|split; [exact Ew|]]].
  destruct (own_box w h a I Ha) as (bx & Eb & _). cbn [w_step] in E. rewrite Eb, Ha in E. unfold agent_set_physical in E. destruct (adjust_physical ops bx (ag_physical a) (antichain_join (ag_physical a) F)); [|discriminate].
  inversion E; subst. unfold agent_at in *. cbn [w_agents].
  rewrite nth_set_eq; [reflexivity|]. apply nth_error_Some. destruct (nth_error (w_agents w) 0); [discriminate|discriminate].
Qed.
Lemma others_own w c w' bs : w_box w <> None -> others_command c -> w_step ops w c = Some (w', bs) -> agent_at w' 0 = agent_at w 0.
Proof.
  intros Hbx [Hc Hn] E. destruct c; cbn [w_step reader_command] in *; try contradiction.
  - destruct (w_box w) as [bx|]; [|inversion E; subst; auto]. destruct (agent_at w i) as [a|] eqn:Ea; [|inversion E; subst; auto]. destruct (agent_clone ops bx a) as [[bx' a']|]; [|discriminate]. inversion E; subst.
    unfold agent_at in *. cbn [w_agents]. destruct (w_agents w) as [|x l]; [destruct i; discriminate|reflexivity].
  - destruct (w_box w) as [bx|]; [|inversion E; subst; auto]. destruct (agent_at w i) as [a|] eqn:Ea; [|inversion E; subst; auto]. destruct (agent_drop ops bx a) as [bx'|]; [|discriminate]. inversion E; subst.
    unfold agent_at in *. cbn [w_agents]. rewrite nth_set_neq; auto. apply nth_error_Some. destruct (nth_error (w_agents w) i); discriminate.
  - destruct (w_box w) as [bx|]; [|inversion E; subst; auto]. destruct (agent_at w i) as [a|] eqn:Ea; [|inversion E; subst; auto]. destruct (agent_set_logical bx a F) as [bx' a']. inversion E; subst.
    unfold agent_at in *. cbn [w_agents]. rewrite nth_set_neq; auto. apply nth_error_Some. destruct (nth_error (w_agents w) i); discriminate.
  - destruct (w_box w) as [bx|]; [|inversion E; subst; auto]. destruct (agent_at w i) as [a|] eqn:Ea; [|inversion E; subst; auto]. destruct (agent_set_physical ops bx a F) as [[bx' a']|]; [|discriminate]. inversion E; subst.
    unfold agent_at in *. cbn [w_agents]. rewrite nth_set_neq; auto. apply nth_error_Some. destruct (nth_error (w_agents w) i); discriminate.
  - destruct (w_writer w); [|inversion E; subst; auto]. destruct (w_box w) as [bx|]; [|inversion E; subst; auto]. destruct (spine_exert ops (bx_trace bx) answer); [|discriminate]. inversion E; subst. reflexivity.
  - destruct (w_box w) as [bx|]; [|inversion E; subst; auto]. destruct (agent_at w i) as [a|] eqn:Ea; [|inversion E; subst; auto]. inversion E; subst. reflexivity.
  - destruct (nth_error (w_listeners w) j) as [[[r l]|]|]; inversion E; subst; reflexivity.
  - inversion E; subst. reflexivity.
Qed.

Lemma exert_own w h F answer : w_inv w h -> own w F -> exists w', w_step ops w (CExert answer) = Some (w', []) /\ w_inv w' h /\ w_writer w' = w_writer w /\ own w' F.
Proof.
  intros I (a & Ha & HL). destruct (exert_step ops contents laws w h answer I) as (w' & E & I' & Ew). exists w'. split; [exact E|split; [exact I'|split; [exact Ew|]]]. exists a. split; auto.
  destruct (own_box w h a I Ha) as (bx & Eb & _). rewrite <- Ha. eapply others_own; [congruence| |exact E]. split; cbn; auto.
Qed.

End Own.
