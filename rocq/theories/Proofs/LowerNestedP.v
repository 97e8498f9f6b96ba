(** In a lowered program nested scopes import from their parents. *)
From Verif Require Import Model.RenderM Model.LowerM Model.ExplainCloneM Spec.DdirSpec Spec.SourceSpec Spec.CloneSpec Proofs.DdirP Proofs.DdirMeansP Proofs.OptimizeP Proofs.LowerP Proofs.LowerScopeP Proofs.LowerTreeP Proofs.LowerPromptP.
Local Open Scope nat_scope.

Definition from_parent (im : Import) : Prop := exists r, im_from im = SParent r.
Definition nested_item (it : Item) : Prop :=
  match it with IOp _ => True | ISub c => everywhere nested_imports c /\ Forall from_parent (sc_imports c) end.
Definition nested (root : bool) (s : LS) : Prop := Forall nested_item (ls_items s) /\ (root = false -> Forall from_parent (ls_imports s)).
Lemma nested_push root n s : nested root s -> nested root (ls_push s (IOp n)).
Proof. intros (H & I). split; simpl; auto. apply Forall_app. split; [auto|repeat constructor]. Qed.
Lemma lower_expr_nested root e : forall s r s', lower_expr root e s = Some (r, s') -> nested root s -> nested root s'.
Proof.
  assert (One : forall e0 (mk : Ref -> Node) s r s', (forall s r s', lower_expr root e0 s = Some (r, s') -> nested root s -> nested root s') ->
    (' (r, s) <- lower_expr root e0 s; Some (push_op (mk r) s)) = Some (r, s') -> nested root s -> nested root s').
  { intros e0 mk s r s' H. destruct (lower_expr root e0 s) as [[r1 s1]|] eqn:E; [|discriminate]. intros [= _ <-] Ps. apply nested_push. eapply H; eauto. }
  induction e as [k|k|k|sc f|e p IHe|l q p IHl IHr|e red IHe|e t IHe|e IHe|e t IHe|e IHe|e t IHe|e lab IHe|es IHes|e IHe] using expr_ind'; intros s r s';
    try (simpl; apply One; exact IHe).
  - simpl. unfold input_ref. destruct root; [|discriminate]. destruct (find _ _) as [[m i]|]; intros [= _ <-] (A & B); split; auto; discriminate.
  - simpl. unfold trace_ref. destruct root; [|discriminate]. destruct (lookup _ _) as [i|]; intros [= _ <-] (A & B); split; auto; discriminate.
  - simpl. destruct (lookup (ls_env s) k); [|discriminate]. intros [= _ <-]. auto.
  - simpl. destruct (qualified_ref sc f s); [|discriminate]. intros [= _ <-]. auto.
  - simpl. destruct (lower_expr root l s) as [[lr s1]|] eqn:E1; [|discriminate]. destruct (lower_expr root q _) as [[rr s2]|] eqn:E2; [|discriminate]. intros [= _ <-] P.
    apply nested_push, nested_push. eapply (IHr _ _ _ E2). apply nested_push. eapply (IHl _ _ _ E1); auto.
  - simpl. destruct (lower_expr root e s) as [[lr s1]|] eqn:E1; [|discriminate]. intros [= _ <-] P. apply nested_push, nested_push. eauto.
  - rewrite lower_concat_eq. assert (G : forall s rs s', lower_each root es s = Some (rs, s') -> nested root s -> nested root s').
    { induction IHes as [|e es He _ IH]; intros s0 rs s0'; cbn [lower_each]; [intros [= _ <-]; auto|]. destruct (lower_expr root e s0) as [[r1 s1]|] eqn:E1; [|discriminate].
      destruct (lower_each root es s1) as [[rs1 s2]|] eqn:E2; [|discriminate]. intros [= _ <-] P. eapply IH; eauto. }
    destruct (lower_each root es s) as [[rs s1]|] eqn:E; [|discriminate]. intros [= _ <-] P. apply nested_push. eauto.
Qed.
Definition nested_closure (cl : closure) : Prop := forall penv wanted child, cl penv wanted = Some child -> everywhere nested_imports child /\ Forall from_parent (sc_imports child).
Definition nested_work (w : work) : Prop := match w with WLet e => True | WScope cl => nested_closure cl end.
Lemma work_nested root body n w s s' : do_work root body n w s = Some s' -> nested_work w -> nested root s -> nested root s'.
Proof.
  destruct w as [e|cl]; simpl; intros E W P.
  - destruct (lower_expr root e s) as [[r s1]|] eqn:E1; [|discriminate]. injection E as <-. exact (lower_expr_nested _ _ _ _ _ E1 P).
  - destruct (cl _ _) as [child|] eqn:Ec; [|discriminate]. injection E as <-. destruct P as (A & B). split; simpl; auto. apply Forall_app. split; [exact A|]. constructor; [exact (W _ _ _ Ec)|constructor].
Qed.
Lemma loop_nested root body fuel : forall pending deps s s', lower_pending root body fuel pending deps s = Some s' -> Forall (fun p => nested_work (snd p)) pending -> nested root s -> nested root s'.
Proof.
  induction fuel as [|fuel IH]; intros pending deps s s'; (destruct pending as [|p0 pending0] eqn:Ep; [intros [= <-]; auto|]); [discriminate|]. rewrite <- Ep. rewrite Ep at 1. cbn [lower_pending]. rewrite <- Ep.
  destruct (take_ready deps pending) as [[[n w] rest]|] eqn:Et; [|discriminate]. destruct (do_work root body n w s) as [s1|] eqn:Ew; [|discriminate]. intros E F P.
  apply take_ready_split in Et. apply (Permutation_Forall Et) in F. inversion F; subst. eapply IH; eauto. eapply work_nested; eauto.
Qed.
Lemma binds_nested root all vs : forall s bs s', lower_binds root all vs s = Some (bs, s') -> nested root s -> nested root s'.
Proof.
  induction vs as [|[n e] vs IH]; intros s bs s'; simpl; [intros [= _ <-]; auto|]. destruct (lower_expr root e s) as [[r s1]|] eqn:E1; [|discriminate]. destruct (var_id all 0 n); [|discriminate].
  destruct (lower_binds root all vs s1) as [[bs1 s2]|] eqn:E2; [|discriminate]. intros [= _ <-] P. eapply IH; eauto. exact (lower_expr_nested _ _ _ _ _ E1 P).
Qed.
Lemma exports_nested root es : forall s xs s', lower_exports root es s = Some (xs, s') -> nested root s -> nested root s'.
Proof.
  induction es as [|[n e] es IH]; intros s bs s'; simpl; [intros [= _ <-]; auto|]. destruct (lower_expr root e s) as [[r s1]|] eqn:E1; [|discriminate].
  destruct (lower_exports root es s1) as [[bs1 s2]|] eqn:E2; [|discriminate]. intros [= _ <-] P. eapply IH; eauto. exact (lower_expr_nested _ _ _ _ _ E1 P).
Qed.
Lemma declare_nested root vs : forall i s, nested root s -> nested root (declare_vars vs i s).
Proof. induction vs as [|[n e] vs IH]; intros i s H; simpl; auto. Qed.
Lemma import_nested names penv : forall s s' root, import_names names penv s = Some s' -> nested root s -> nested root s'.
Proof.
  induction names as [|n names IH]; intros s s' root; simpl; [intros [= <-]; auto|]. destruct (lookup penv n); [|discriminate]. intros E (A & B). apply (IH _ _ _ E).
  split; simpl; auto. intros H. apply Forall_app. split; [auto|]. repeat constructor. eexists. reflexivity.
Qed.
Lemma scope_nested root stmts : (forall n b, In (SScope n b) stmts -> nested_closure (scope_closure n b)) ->
  forall name penv wanted sc, lower_scope root name (with_closures stmts) penv wanted = Some sc -> everywhere nested_imports sc /\ (root = false -> Forall from_parent (sc_imports sc)).
Proof.
  intros C name penv wanted sc E. destruct (run_scope _ _ _ _ _ _ E) as (s00 & s1 & s2 & s3 & R & _).
  assert (P0 : nested root (declare_vars (vars_of stmts) 0 s00)) by (apply declare_nested; eapply import_nested; [exact (ru_import _ _ _ _ _ _ _ _ R)|split; constructor]).
  destruct (ru_loop _ _ _ _ _ _ _ _ R) as (deps & El). apply loop_nested in El; auto.
  2: { apply Forall_forall. intros (n & w) H. simpl. apply pending_In in H as [(e & H & ->)|(b & H & ->)]; simpl; [exact I|apply C; auto]. }
  pose proof (binds_nested _ _ _ _ _ _ (ru_binds _ _ _ _ _ _ _ _ R) El) as P2.
  assert (P3 : nested root s3) by (pose proof (ru_exports _ _ _ _ _ _ _ _ R) as Ex; destruct root; [eapply exports_nested; eauto|subst; auto]).
  destruct P3 as (P3 & P4). rewrite Forall_forall in P3. pose proof (ru_items _ _ _ _ _ _ _ _ R) as Ei.
  assert (Eim : sc_imports sc = ls_imports s3).
  { exact (ru_imports _ _ _ _ _ _ _ _ R). }
  split; [|rewrite Eim; exact P4]. constructor; intros c H; rewrite Ei in H; apply (P3 _ H).
Qed.
Lemma closures_nested st : match st with SScope n b => nested_closure (scope_closure n b) | _ => True end.
Proof.
  induction st as [n e|n e|n b IH|n e] using stmt_ind'; auto. rewrite Forall_forall in IH. intros penv wanted child E. 
  destruct (scope_nested false b (fun m c Hc => IH _ Hc) _ _ _ _ E) as (A & B). split; auto.
Qed.
Theorem tree_nested stmts p : lower_tree stmts = Some p -> everywhere nested_imports p.
Proof. intros E. eapply scope_nested; [|exact E]. intros m c Hc. exact (closures_nested (SScope m c)). Qed.
