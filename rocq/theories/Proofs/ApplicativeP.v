(** The applicative syntax. *)
From Coq Require Import String.
From Verif Require Export Spec.ApplicativeSpec Proofs.PipeExprP.
From Coq Require Import Lia.
Local Open Scope nat_scope.

(** ** Terms are read as by the pipe syntax *)
Lemma applicative_cons k ts : applicative (k :: ts) <-> k <> KCase /\ k <> KFold /\ applicative ts.
Proof. unfold applicative. simpl. tauto. Qed.
Lemma applicative_app a b : applicative (a ++ b) <-> applicative a /\ applicative b.
Proof. unfold applicative. rewrite !in_app_iff. tauto. Qed.
Definition agrees {A} (q p : option (A * list Tok)) : Prop := q = p /\ forall t r, q = Some (t, r) -> applicative r.
Lemma agrees_none {A} : agrees (@None (A * list Tok)) None. Proof. split; auto. discriminate. Qed.
Lemma agrees_some {A} (t : A) r : applicative r -> agrees (Some (t, r)) (Some (t, r)). Proof. split; auto. intros ? ? [= <- <-]. auto. Qed.
Lemma agrees_bind {A B} (q p : option (A * list Tok)) (f g : A -> list Tok -> option (B * list Tok)) :
  agrees q p -> (forall t r, applicative r -> agrees (f t r) (g t r)) -> agrees (' (t, r) <- q; f t r) (' (t, r) <- p; g t r).
Proof. intros [-> H] F. destruct p as [[t r]|]; [|apply agrees_none]. apply F. eapply H; eauto. Qed.
Lemma projs_agree ts : applicative ts -> forall t, agrees (q_projs t ts) (projs t ts).
Proof.
  induction ts as [ts IH] using (well_founded_induction (Wf_nat.well_founded_ltof _ (@length Tok))). unfold ltof in IH. intros P t.
  destruct ts as [|k ts]; [apply agrees_none|]. destruct k; try (apply agrees_some; auto; fail).
  destruct ts as [|k ts]; [apply agrees_none|]. destruct k; try apply agrees_none. destruct ts as [|k ts]; [apply agrees_none|]. destruct k; try apply agrees_none. cbn [projs q_projs]. apply IH; [simpl; lia|]. rewrite !applicative_cons in P. tauto.
Qed.
Definition bare := in_terms [].
Definition all_agree (n : nat) : Prop :=
  (forall ts, applicative ts -> agrees (q_logic n ts) (p_logic n bare ts)) /\ (forall l ts, applicative ts -> agrees (q_logic_loop n l ts) (logic_loop n bare l ts)) /\
  (forall ts, applicative ts -> agrees (q_cmp n ts) (p_cmp n bare ts)) /\
  (forall ts, applicative ts -> agrees (q_add n ts) (p_add n bare ts)) /\ (forall l ts, applicative ts -> agrees (q_add_loop n l ts) (add_loop n bare l ts)) /\
  (forall ts, applicative ts -> agrees (q_mul n ts) (p_mul n bare ts)) /\ (forall l ts, applicative ts -> agrees (q_mul_loop n l ts) (mul_loop n bare l ts)) /\
  (forall ts, applicative ts -> agrees (q_unary n ts) (p_unary n bare ts)) /\ (forall ts, applicative ts -> agrees (q_primary n ts) (p_primary n bare ts)) /\
  (forall l ts, applicative ts -> agrees (q_args n l ts) (args_loop n bare l ts)).
Ltac tail_of P := repeat (rewrite applicative_cons in P); tauto.
Lemma terms_agree n : all_agree n.
Proof.
  induction n as [|n IH]; [unfold all_agree; repeat match goal with |- _ /\ _ => split end; intros; apply agrees_none|].
  destruct IH as (LOG & LL & CMP & ADD & AL & MUL & ML & UN & PR & AR). unfold all_agree. repeat match goal with |- _ /\ _ => split end.
  - intros ts P. cbn [q_logic p_logic]. apply agrees_bind; auto.
  - intros l ts P. cbn [q_logic_loop logic_loop]. destruct ts as [|k ts]; [apply agrees_none|]. destruct k; try (apply agrees_some; auto; fail). apply agrees_bind; auto. apply CMP. tail_of P.
  - intros ts P. cbn [q_cmp p_cmp]. apply agrees_bind; auto. intros t r R. destruct r as [|k r]; [apply agrees_none|]. change (cmp_op k) with (q_cmp_op k). destruct (q_cmp_op k); [|apply agrees_some; auto].
    apply (agrees_bind (q_add n r) (p_add n bare r)); [apply ADD; tail_of R|]. intros. apply agrees_some. auto.
  - intros ts P. cbn [q_add p_add]. apply agrees_bind; auto.
  - intros l ts P. cbn [q_add_loop add_loop]. destruct ts as [|k ts]; [apply agrees_none|]. change (add_op k) with (q_add_op k). destruct (q_add_op k); [|apply agrees_some; auto]. apply agrees_bind; auto. apply MUL. tail_of P.
  - intros ts P. cbn [q_mul p_mul]. apply agrees_bind; auto.
  - intros l ts P. cbn [q_mul_loop mul_loop]. destruct ts as [|k ts]; [apply agrees_none|]. destruct k; try (apply agrees_some; auto; fail). apply agrees_bind; auto. apply UN. tail_of P.
  - intros ts P. cbn [q_unary p_unary]. destruct ts as [|k ts]; [apply PR; auto|]. destruct k; try (apply PR; auto; fail). apply (agrees_bind (q_unary n ts) (p_unary n bare ts)); [apply UN; tail_of P|]. intros. apply agrees_some. auto.
  - intros ts P. cbn [q_primary p_primary]. apply agrees_bind; [|intros; apply projs_agree; auto].
    destruct ts as [|k ts]; [apply agrees_none|]. destruct k; try apply agrees_none; try (exfalso; rewrite applicative_cons in P; tauto).
    + destruct ts as [|k ts]; [apply agrees_none|]. destruct k; try apply agrees_none. assert (Q : applicative ts) by tail_of P.
      assert (Q0 : agrees (' (a, ts0) <- q_logic n ts; ' (args, ts1) <- q_args n [a] ts0; t <- build_builtin s args; Some (t, ts1)) (' (a, ts0) <- p_logic n bare ts; ' (args, ts1) <- args_loop n bare [a] ts0; t <- call bare s args; Some (t, ts1))).
      { apply agrees_bind; auto. intros a r R. apply (agrees_bind (q_args n [a] r) (args_loop n bare [a] r)); auto. intros args r1 R1. change (call bare s args) with (build_builtin s args). destruct (build_builtin s args); [apply agrees_some; auto|apply agrees_none]. }
      destruct ts as [|k ts]; [exact Q0|]. destruct k; try exact Q0. change (call bare s []) with (build_builtin s []). destruct (build_builtin s []); [apply agrees_some; tail_of Q|apply agrees_none].
    + apply agrees_some. tail_of P.
    + destruct ts as [|k ts]; [apply agrees_none|]. destruct k; try apply agrees_none. apply agrees_some. tail_of P.
    + destruct ts as [|k ts]; [apply agrees_none|]. destruct k; try apply agrees_none. apply agrees_some. tail_of P.
    + apply (agrees_bind (q_logic n ts) (p_logic n bare ts)); [apply LOG; tail_of P|]. intros t r R. destruct r as [|k r]; [apply agrees_none|]. destruct k; try apply agrees_none. apply agrees_some. tail_of R.
    + apply (agrees_bind (q_unary n ts) (p_unary n bare ts)); [apply UN; tail_of P|]. intros. apply agrees_some. auto.
  - intros l ts P. cbn [q_args args_loop]. destruct ts as [|k ts]; [apply agrees_none|]. destruct k; try apply agrees_none; [|apply agrees_bind; auto; apply LOG; tail_of P]. apply agrees_some. tail_of P.
Qed.
Lemma term_agrees ts : applicative ts -> agrees (q_term ts) (p_term [] ts).
Proof. intros P. apply terms_agree. auto. Qed.
Lemma field_agrees ts : applicative ts -> agrees (q_field ts) (p_field [] ts).
Proof.
  intros P. pose proof (term_agrees ts P) as T. destruct ts as [|k ts]; auto. destruct k; auto. cbn [q_field p_field]. destruct ts as [|k ts]; auto. destruct k; auto.
  assert (S : agrees (Some (TSpread (TVar n), ts)) (Some (TSpread (TVar n), ts))) by (apply agrees_some; tail_of P). destruct ts as [|k ts]; auto. destruct k; auto.
Qed.
Lemma field_loop_agrees n : forall fs ts, applicative ts -> agrees (q_field_loop n fs ts) (field_loop n [] fs ts).
Proof.
  induction n as [|n IH]; intros fs ts P; [apply agrees_none|]. cbn [q_field_loop field_loop]. destruct ts as [|k ts]; [apply agrees_none|]. destruct k; try (apply agrees_some; auto; fail). apply agrees_bind; auto. apply field_agrees. tail_of P.
Qed.
Lemma fields_agrees stop ts : applicative ts -> agrees (q_fields stop ts) (p_fields [] stop ts).
Proof. intros P. unfold q_fields, p_fields. destruct ts as [|k ts]; [apply agrees_none|]. destruct (stop k); [apply agrees_some; auto|]. apply agrees_bind; [apply field_agrees; auto|]. intros. apply field_loop_agrees. auto. Qed.
Lemma projection_agrees ts : applicative ts -> agrees (q_projection ts) (p_projection [] ts).
Proof.
  intros P. unfold q_projection, p_projection. destruct ts as [|k ts]; [apply agrees_none|]. destruct k; try apply agrees_none. apply agrees_bind; [apply fields_agrees; tail_of P|]. intros key r R.
  apply (agrees_bind (match r with KSemi :: ts => q_fields close ts | _ => Some ([], r) end) (match r with KSemi :: ts => p_fields [] close ts | _ => Some ([], r) end)).
  - destruct r as [|k r]; [apply agrees_some; auto|]. destruct k; try (apply agrees_some; auto; fail). apply fields_agrees. tail_of R.
  - intros v r1 R1. destruct r1 as [|k r1]; [apply agrees_none|]. destruct k; try apply agrees_none. apply agrees_some. tail_of R1.
Qed.
