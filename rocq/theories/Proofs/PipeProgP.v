(** Programs are read as the grammar says. *)
From Coq Require Import String.
From Verif Require Export Spec.PipeProgSpec Proofs.PipeParseP.
From Coq Require Import Lia.
Local Open Scope nat_scope.

(** A term is read with all its indexes. *)
Lemma projs_rest ts : forall t0 t r, projs t0 ts = Some (t, r) -> hd KEof r <> KLBracket.
Proof.
  induction ts as [ts IH] using (well_founded_induction (Wf_nat.well_founded_ltof _ (@length Tok))). intros t0 t r H. unfold ltof in IH.
  destruct ts as [|k ts]; [discriminate|]. destruct k; try (cbn [projs] in H; injection H as <- <-; discriminate).
  destruct ts as [|k ts]; [discriminate|]. destruct k; try discriminate. destruct ts as [|k ts]; [discriminate|]. destruct k; try discriminate. cbn [projs] in H. eapply (IH ts); eauto. simpl. lia.
Qed.
Definition unindexed {A} (p : option (A * list Tok)) : Prop := forall t r, p = Some (t, r) -> hd KEof r <> KLBracket.
Lemma bracket_free n : (forall cx ts, unindexed (p_logic n cx ts)) /\ (forall cx ts, unindexed (p_cmp n cx ts)) /\ (forall cx ts, unindexed (p_add n cx ts)) /\ (forall cx ts, unindexed (p_mul n cx ts)) /\
  (forall cx ts, unindexed (p_unary n cx ts)) /\ (forall cx ts, unindexed (p_primary n cx ts)) /\
  (forall cx l ts, hd KEof ts <> KLBracket -> unindexed (logic_loop n cx l ts)) /\ (forall cx l ts, hd KEof ts <> KLBracket -> unindexed (add_loop n cx l ts)) /\ (forall cx l ts, hd KEof ts <> KLBracket -> unindexed (mul_loop n cx l ts)).
Proof.
  induction n as [|n IH]; [unfold unindexed; repeat match goal with |- _ /\ _ => split end; intros; discriminate|].
  destruct IH as (LOG & CMP & ADD & MUL & UN & PR & LL & AL & ML). repeat match goal with |- _ /\ _ => split end.
  - intros cx ts t r H. cbn [p_logic] in H. destruct (p_cmp n cx ts) as [[l ts1]|] eqn:E; [|discriminate]. eapply LL; [|exact H]. eapply CMP; eauto.
  - intros cx ts t r H. cbn [p_cmp] in H. destruct (p_add n cx ts) as [[l ts1]|] eqn:E; [|discriminate]. apply ADD in E. destruct ts1 as [|k ts1]; [discriminate|]. destruct (cmp_op k); [|injection H as <- <-; auto].
    destruct (p_add n cx ts1) as [[l2 ts2]|] eqn:E2; [|discriminate]. injection H as <- <-. eapply ADD; eauto.
  - intros cx ts t r H. cbn [p_add] in H. destruct (p_mul n cx ts) as [[l ts1]|] eqn:E; [|discriminate]. eapply AL; [|exact H]. eapply MUL; eauto.
  - intros cx ts t r H. cbn [p_mul] in H. destruct (p_unary n cx ts) as [[l ts1]|] eqn:E; [|discriminate]. eapply ML; [|exact H]. eapply UN; eauto.
  - intros cx ts t r H. cbn [p_unary] in H. destruct ts as [|k ts]; [eapply PR; eauto|]. destruct k; try (eapply PR; eauto; fail). destruct (p_unary n cx ts) as [[l ts1]|] eqn:E; [|discriminate]. injection H as <- <-. eapply UN; eauto.
  - intros cx ts t r H. cbn [p_primary] in H. match type of H with match ?m with _ => _ end = _ => destruct m as [[base ts1]|]; [|discriminate] end. eapply projs_rest; eauto.
  - intros cx l ts N t r H. cbn [logic_loop] in H. destruct ts as [|k ts]; [discriminate|]. destruct k; try (injection H as <- <-; exact N). destruct (p_cmp n cx ts) as [[l1 ts1]|] eqn:E; [|discriminate]. eapply LL; [|exact H]. eapply CMP; eauto.
  - intros cx l ts N t r H. cbn [add_loop] in H. destruct ts as [|k ts]; [discriminate|]. destruct (add_op k); [|injection H as <- <-; exact N]. destruct (p_mul n cx ts) as [[l1 ts1]|] eqn:E; [|discriminate]. eapply AL; [|exact H]. eapply MUL; eauto.
  - intros cx l ts N t r H. cbn [mul_loop] in H. destruct ts as [|k ts]; [discriminate|]. destruct k; try (injection H as <- <-; exact N). destruct (p_unary n cx ts) as [[l1 ts1]|] eqn:E; [|discriminate]. eapply ML; [|exact H]. eapply UN; eauto.
Qed.
Lemma no_bracket n cx ts t r : p_logic n cx ts = Some (t, r) -> hd KEof r = KLBracket -> False.
Proof. intros H E. exact (proj1 (bracket_free n) cx ts t r H E). Qed.

(** ** Terms and projections *)
Lemma term_complete cons ts t rest : a_term cons ts t -> ends rest -> p_term cons (ts ++ rest) = Some (t, rest).
Proof. intros H E. destruct rest as [|k rest]; [destruct E|]. apply parse_exact; auto. Qed.
Lemma term_sound cons ts t r : p_term cons ts = Some (t, r) -> exists u, ts = u ++ r /\ a_term cons u t.
Proof. intros H. destruct (proj1 (parser_sound _) _ _ _ _ H) as (u & s & A & B & C). exists u. split; auto. exists s. auto. Qed.
Lemma term_nonempty cons ts t : a_term cons ts t -> 1 <= length ts.
Proof. intros (s & R & _). eapply (proj1 reads_nonempty); eauto. Qed.
Definition field_end (ts : list Tok) : Prop := exists k r, ts = k :: r /\ (k = KComma \/ k = KSemi \/ k = KRParen).
Lemma field_end_ends ts : field_end ts -> ends ts /\ hd KEof ts <> KLBracket.
Proof. intros (k & r & -> & [ -> | [ -> | -> ] ]); (split; [simpl; intros H; repeat destruct H as [H|H]; try discriminate; contradiction|discriminate]). Qed.
Lemma field_nonempty cons ts t : a_field cons ts t -> 1 <= length ts.
Proof. intros [|]; [simpl; lia|eapply term_nonempty; eauto]. Qed.
Lemma field_complete cons ts t rest : a_field cons ts t -> field_end rest -> p_field cons (ts ++ rest) = Some (t, rest).
Proof.
  intros F E. apply field_end_ends in E. destruct E as [E1 E2]. destruct F as [n|ts t T N].
  - cbn [app p_field]. destruct rest as [|k rest]; auto. destruct k; auto. simpl in E2. contradiction.
  - pose proof (term_nonempty _ _ _ T) as L. pose proof (term_complete _ _ _ rest T E1) as Q. destruct ts as [|k ts]; [simpl in L; lia|]. cbn [app] in *. destruct k; auto. cbn [p_field].
    destruct ts as [|k ts]; [|destruct k; auto].
    + (* the row sign alone is no term *) exfalso. destruct T as (s & R & _). clear - R. remember [KDollar] as l. assert (X : forall lv ts s, reads lv ts s -> ts = [KDollar] -> False).
      { clear. induction 1; intros E; try discriminate; auto; try (apply (f_equal (@length Tok)) in E; rewrite ?app_length in E; simpl in E; pose proof (proj1 reads_nonempty _ _ _ H); rewrite ?app_length in *; simpl in *; lia).
        all: try (injection E as E; destruct ts; discriminate). }
      subst. eapply X; eauto.
    + cbn [app]. specialize (N n ts eq_refl). destruct ts as [|k ts]; [discriminate|]. simpl in N. subst k. exact Q.
Qed.
Lemma field_sound cons ts t r : p_field cons ts = Some (t, r) -> exists u, ts = u ++ r /\ (a_field cons u t).
Proof.
  intros H.
  assert (B : (exists n r0, ts = KDollar :: KInt n :: r0 /\ hd KEof r0 <> KLBracket) \/ p_field cons ts = p_term cons ts /\ forall n r0, ts = KDollar :: KInt n :: r0 -> hd KEof r0 = KLBracket).
  { destruct ts as [|k ts]; [right; split; [auto|discriminate]|]. destruct k; try (right; split; [auto|discriminate]). destruct ts as [|k ts]; [right; split; [auto|discriminate]|]. destruct k; try (right; split; [auto|discriminate]).
    destruct ts as [|k ts]; [left; eexists _, _; split; [reflexivity|discriminate]|]. destruct k; try (left; eexists _, _; split; [reflexivity|discriminate]). right. split; auto. intros m r0 [= <- <-]. auto. }
  destruct B as [(n & r0 & -> & N)|[B N]].
  - assert (Q : Some (TSpread (TVar n), r0) = Some (t, r)) by (rewrite <- H; cbn [p_field]; destruct r0 as [|k r0]; auto; destruct k; auto; contradiction). injection Q as <- <-. exists [KDollar; KInt n]. split; auto. constructor.
  - rewrite B in H. pose proof H as H0. apply term_sound in H. destruct H as (u & -> & T). exists u. split; auto. constructor; auto. intros n rest ->. cbn [app] in N.
    destruct rest as [|k rest]; [|exact (N n _ eq_refl)]. simpl. exfalso.
    (* a row that is followed by an index is not read without it *)
    specialize (N n r eq_refl). destruct r as [|k r]; [discriminate|]. simpl in N. subst k.
    exact (no_bracket _ _ _ _ _ H0 eq_refl).
Qed.

Lemma fields_nonempty cons ts fs : some_fields cons ts fs -> 1 <= length ts /\ fs <> [].
Proof. induction 1 as [ts t F|a ts b t S IH F]; [split; [eapply field_nonempty; eauto|discriminate]|]. split; [rewrite app_length; simpl; lia|destruct ts; discriminate]. Qed.
Lemma fields_complete cons ts fs : some_fields cons ts fs -> forall n rest, field_end rest -> n > length ts ->
  exists m, m >= 1 /\ m + length ts >= n /\ (' (f, ts) <- p_field cons (ts ++ rest); field_loop n cons [f] ts) = field_loop m cons fs rest.
Proof.
  induction 1 as [ts t F|a fs b t S IH F]; intros n rest E L.
  - exists n. split; [lia|]. split; [lia|]. rewrite (field_complete _ _ _ _ F E). auto.
  - rewrite app_length in *. cbn [length] in *. destruct (IH n (KComma :: b ++ rest)) as (m & M1 & M2 & Q); [eexists _, _; split; [reflexivity|auto]|lia|]. rewrite <- app_assoc. cbn [app]. rewrite Q.
    pose proof (field_nonempty _ _ _ F). destruct m as [|m]; [lia|]. exists m. split; [lia|]. split; [lia|]. cbn [field_loop]. rewrite (field_complete _ _ _ _ F E). auto.
Qed.
Lemma field_loop_sound cons n : forall us ts us' r u0, some_fields cons u0 us -> field_loop n cons us ts = Some (us', r) -> exists u, u0 ++ ts = u ++ r /\ some_fields cons u us'.
Proof.
  induction n as [|n IH]; intros us ts us' r u0 S H; [discriminate|]. cbn [field_loop] in H. destruct ts as [|k ts]; [discriminate|]. destruct k; try (injection H as <- <-; exists u0; auto; fail).
  destruct (p_field cons ts) as [[f ts1]|] eqn:E; [|discriminate]. apply field_sound in E. destruct E as (v & -> & F). destruct (IH (us ++ [f]) ts1 us' r (u0 ++ KComma :: v)) as (u & A & B); auto; [constructor; auto|].
  exists u. split; auto. rewrite <- A, <- app_assoc. auto.
Qed.
Lemma some_head cons ts fs : some_fields cons ts fs -> exists k r, ts = k :: r /\ k <> KSemi /\ k <> KRParen.
Proof.
  assert (X : forall lv ts s, reads lv ts s -> exists k r, ts = k :: r /\ k <> KSemi /\ k <> KRParen).
  { clear. induction 1; try (eexists _, _; split; [reflexivity|split; discriminate]); auto; try (destruct IHreads1 as (k0 & r0 & -> & N0); eexists _, _; split; [reflexivity|auto]). destruct IHreads as (k0 & r0 & -> & N0). eexists _, _. split; [reflexivity|auto]. }
  induction 1 as [ts t F|a fs b t S IH F]; [|destruct IH as (k & r & -> & N); eexists _, _; split; [reflexivity|auto]].
  destruct F as [n|ts t (s & R & _) _]; [eexists _, _; split; [reflexivity|split; discriminate]|eapply X; eauto].
Qed.
Lemma p_fields_complete cons stop ts fs k rest : the_fields cons ts fs -> (k = KSemi \/ k = KRParen) -> stop k = true -> (forall x, stop x = true -> x = KSemi \/ x = KRParen) ->
  p_fields cons stop (ts ++ k :: rest) = Some (fs, k :: rest).
Proof.
  intros F K S1 S2. destruct F as [|ts fs F]; [cbn [app p_fields]; rewrite S1; auto|]. destruct (some_head _ _ _ F) as (k0 & r0 & E0 & N1 & N2). unfold p_fields. rewrite E0 at 1. cbn [app]. destruct (stop k0) eqn:S0; [destruct (S2 _ S0); contradiction|].
  destruct (fields_complete _ _ _ F (S (length (ts ++ k :: rest))) (k :: rest)) as (m & M1 & M2 & Q); [eexists _, _; split; [reflexivity|tauto]|rewrite app_length; lia|]. etransitivity; [exact Q|]. destruct m as [|m]; [lia|]. cbn [field_loop]. destruct K as [-> | ->]; auto.
Qed.
Lemma p_fields_sound cons stop ts fs r : p_fields cons stop ts = Some (fs, r) -> exists u, ts = u ++ r /\ the_fields cons u fs.
Proof.
  unfold p_fields. destruct ts as [|k ts]; [discriminate|]. destruct (stop k); [intros H; injection H as <- <-; exists []; split; auto; constructor|]. set (l := k :: ts). intros H. destruct (p_field cons l) as [[f ts']|] eqn:E; [|discriminate].
  apply field_sound in E. destruct E as (u0 & -> & F). destruct (field_loop_sound _ _ _ _ _ _ u0 (f_one _ _ _ F) H) as (u & A & B). exists u. split; auto. constructor. auto.
Qed.
Lemma projection_complete cons ts p rest : a_projection cons ts p -> p_projection cons (ts ++ rest) = Some (p, rest).
Proof.
  intros [a ks F|a ks b vs F G]; cbn [app p_projection]; rewrite <- app_assoc; cbn [app].
  - rewrite (p_fields_complete cons semi_or_close a ks KRParen rest F); auto. intros x; destruct x; simpl; auto; discriminate.
  - rewrite (p_fields_complete cons semi_or_close a ks KSemi _ F); auto; [|intros x; destruct x; simpl; auto; discriminate]. rewrite <- app_assoc. cbn [app].
    rewrite (p_fields_complete cons close b vs KRParen rest G); auto. intros x; destruct x; simpl; auto; discriminate.
Qed.
Lemma projection_sound cons ts p r : p_projection cons ts = Some (p, r) -> exists u, ts = u ++ r /\ a_projection cons u p.
Proof.
  unfold p_projection. destruct ts as [|k ts]; [discriminate|]. destruct k; try discriminate. destruct (p_fields cons semi_or_close ts) as [[key ts1]|] eqn:E1; [|discriminate]. apply p_fields_sound in E1. destruct E1 as (u & -> & F).
  assert (K : (exists ts2, ts1 = KSemi :: ts2) \/ forall (A : Type) (x : list Tok -> A) y, match ts1 with KSemi :: ts => x ts | _ => y end = y).
  { destruct ts1 as [|k ts1]; [right; auto|]. destruct k; try (right; auto; fail). left. eauto. }
  destruct K as [[ts2 ->]|K].
  - destruct (p_fields cons close ts2) as [[val ts3]|] eqn:E2; [|discriminate]. apply p_fields_sound in E2. destruct E2 as (v & -> & G). destruct ts3 as [|k ts3]; [discriminate|]. destruct k; try discriminate. intros H. injection H as <- <-.
    exists (KLParen :: u ++ KSemi :: v ++ [KRParen]). split; [cbn [app]; repeat (rewrite <- app_assoc; cbn [app]); auto|constructor; auto].
  - rewrite (K _ (fun ts => p_fields cons close ts) (Some ([], ts1))). destruct ts1 as [|k ts1]; [discriminate|]. destruct k; try discriminate. intros H. injection H as <- <-.
    exists (KLParen :: u ++ [KRParen]). split; [cbn [app]; rewrite <- app_assoc; auto|constructor; auto].
Qed.
Lemma paren_complete cons ts t rest : a_term cons ts t -> p_paren_term cons (KLParen :: ts ++ KRParen :: rest) = Some (t, rest).
Proof. intros T. cbn [p_paren_term]. rewrite (term_complete cons ts t (KRParen :: rest) T); auto. simpl. intros H; repeat destruct H as [H|H]; try discriminate; contradiction. Qed.
Lemma paren_sound cons ts t r : p_paren_term cons ts = Some (t, r) -> exists u, ts = KLParen :: u ++ KRParen :: r /\ a_term cons u t.
Proof.
  unfold p_paren_term. destruct ts as [|k ts]; [discriminate|]. destruct k; try discriminate. destruct (p_term cons ts) as [[t1 ts1]|] eqn:E; [|discriminate]. apply term_sound in E. destruct E as (u & -> & T). destruct ts1 as [|k ts1]; [discriminate|]. destruct k; try discriminate. intros H. injection H as <- <-. eauto.
Qed.
