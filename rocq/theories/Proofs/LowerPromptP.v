(** A program that delays nothing is lowered to one that delays nothing. *)
From Verif Require Import Model.RenderM Model.LowerM Spec.DdirSpec Spec.SourceSpec Proofs.DdirP Proofs.DdirMeansP Proofs.OptimizeP Proofs.LowerP Proofs.LowerScopeP Proofs.LowerTreeP.
Local Open Scope nat_scope.

Definition prompt_scope (s : Scope) : Prop := forall r ops, In (IOp (NLinear r ops)) (sc_items s) -> existsb delays ops = false.
Definition prompt_item (it : Item) : Prop :=
  match it with IOp (NLinear _ ops) => existsb delays ops = false | IOp _ => True | ISub c => everywhere prompt_scope c end.
Definition prompt (s : LS) : Prop := Forall prompt_item (ls_items s).
Lemma prompt_tame s : prompt_scope s -> tame s.
Proof.
  intros H n r ops _ _ D. induction D as [j r0 ops0 E D|j r0 ops0 E D IH]; [|exact IH]. rewrite (H r0 ops0) in D; [discriminate|]. eapply nth_error_In; eauto.
Qed.
Fixpoint everywhere_impl (P Q : Scope -> Prop) (H : forall s, P s -> Q s) s (E : everywhere P s) : everywhere Q s :=
  match E with Everywhere _ _ A B => Everywhere Q s (H s A) (fun c Hc => everywhere_impl P Q H c (B c Hc)) end.
Lemma prompt_push it s : prompt s -> prompt_item it -> prompt (ls_push s it).
Proof. intros H I. unfold prompt. simpl. apply Forall_app. auto. Qed.
Lemma lower_expr_prompt root e : forall s r s', expr_prompt e = true -> lower_expr root e s = Some (r, s') -> prompt s -> prompt s'.
Proof.
  assert (One : forall e0 (mk : Ref -> Node) s r s', (forall s r s', expr_prompt e0 = true -> lower_expr root e0 s = Some (r, s') -> prompt s -> prompt s') -> (forall r, prompt_item (IOp (mk r))) ->
    expr_prompt e0 = true -> (' (r, s) <- lower_expr root e0 s; Some (push_op (mk r) s)) = Some (r, s') -> prompt s -> prompt s').
  { intros e0 mk s r s' H Hm P0. destruct (lower_expr root e0 s) as [[r1 s1]|] eqn:E; [|discriminate]. intros [= _ <-] Ps. apply prompt_push; [eapply H; eauto|auto]. }
  induction e as [k|k|k|sc f|e p IHe|l q p IHl IHr|e red IHe|e t IHe|e IHe|e t IHe|e IHe|e t IHe|e lab IHe|es IHes|e IHe] using expr_ind'; intros s r s' Hp;
    try (simpl in Hp |- *; apply One; [exact IHe|intros; simpl; auto|exact Hp]; fail).
  - simpl. unfold input_ref. destruct root; [|discriminate]. destruct (find _ _) as [[m i]|]; intros [= _ <-]; auto.
  - simpl. unfold trace_ref. destruct root; [|discriminate]. destruct (lookup _ _) as [i|]; intros [= _ <-]; auto.
  - simpl. destruct (lookup (ls_env s) k); [|discriminate]. intros [= _ <-]. auto.
  - simpl. destruct (qualified_ref sc f s); [|discriminate]. intros [= _ <-]. auto.
  - simpl in Hp. apply andb_true_iff in Hp as (H1 & H2). simpl. destruct (lower_expr root l s) as [[lr s1]|] eqn:E1; [|discriminate]. destruct (lower_expr root q _) as [[rr s2]|] eqn:E2; [|discriminate]. intros [= _ <-] P.
    apply prompt_push; [|exact I]. apply prompt_push; [|exact I]. eapply (IHr _ _ _ H2 E2). apply prompt_push; [|exact I]. eapply (IHl _ _ _ H1 E1); auto.
  - simpl in *. destruct (lower_expr root e s) as [[lr s1]|] eqn:E1; [|discriminate]. intros [= _ <-] P. apply prompt_push; [|exact I]. apply prompt_push; [|exact I]. eauto.
  - discriminate.
  - rewrite lower_concat_eq. assert (G : forall s rs s', lower_each root es s = Some (rs, s') -> prompt s -> prompt s').
    { simpl in Hp. induction IHes as [|e es He _ IH]; intros s0 rs s0'; cbn [lower_each]; [intros [= _ <-]; auto|]. simpl in Hp. apply andb_true_iff in Hp as (H1 & H2). destruct (lower_expr root e s0) as [[r1 s1]|] eqn:E1; [|discriminate].
      destruct (lower_each root es s1) as [[rs1 s2]|] eqn:E2; [|discriminate]. intros [= _ <-] P. eapply IH; eauto. }
    destruct (lower_each root es s) as [[rs s1]|] eqn:E; [|discriminate]. intros [= _ <-] P. apply prompt_push; [eauto|exact I].
Qed.
Definition prompt_closure (cl : closure) : Prop := forall penv wanted child, cl penv wanted = Some child -> everywhere prompt_scope child.
Definition prompt_work (w : work) : Prop := match w with WLet e => expr_prompt e = true | WScope cl => prompt_closure cl end.
Lemma work_prompt root body n w s s' : do_work root body n w s = Some s' -> prompt_work w -> prompt s -> prompt s'.
Proof.
  destruct w as [e|cl]; simpl; intros E W P.
  - destruct (lower_expr root e s) as [[r s1]|] eqn:E1; [|discriminate]. injection E as <-. exact (lower_expr_prompt _ _ _ _ _ W E1 P).
  - destruct (cl _ _) as [child|] eqn:Ec; [|discriminate]. injection E as <-. apply Forall_app. split; [exact P|]. constructor; [exact (W _ _ _ Ec)|constructor].
Qed.
Lemma loop_prompt root body fuel : forall pending deps s s', lower_pending root body fuel pending deps s = Some s' -> Forall (fun p => prompt_work (snd p)) pending -> prompt s -> prompt s'.
Proof.
  induction fuel as [|fuel IH]; intros pending deps s s'; (destruct pending as [|p0 pending0] eqn:Ep; [intros [= <-]; auto|]); [discriminate|]. rewrite <- Ep. rewrite Ep at 1. cbn [lower_pending]. rewrite <- Ep.
  destruct (take_ready deps pending) as [[[n w] rest]|] eqn:Et; [|discriminate]. destruct (do_work root body n w s) as [s1|] eqn:Ew; [|discriminate]. intros E F P.
  apply take_ready_split in Et. apply (Permutation_Forall Et) in F. inversion F; subst. eapply IH; eauto. eapply work_prompt; eauto.
Qed.
Lemma binds_prompt root all vs : forall s bs s', lower_binds root all vs s = Some (bs, s') -> Forall (fun p => expr_prompt (snd p) = true) vs -> prompt s -> prompt s'.
Proof.
  induction vs as [|[n e] vs IH]; intros s bs s'; simpl; [intros [= _ <-]; auto|]. destruct (lower_expr root e s) as [[r s1]|] eqn:E1; [|discriminate]. destruct (var_id all 0 n); [|discriminate].
  destruct (lower_binds root all vs s1) as [[bs1 s2]|] eqn:E2; [|discriminate]. intros [= _ <-] F P. inversion F as [|? ? A B]; subst. eapply IH; eauto. exact (lower_expr_prompt _ _ _ _ _ A E1 P).
Qed.
Lemma exports_prompt root es : forall s xs s', lower_exports root es s = Some (xs, s') -> Forall (fun p => expr_prompt (snd p) = true) es -> prompt s -> prompt s'.
Proof.
  induction es as [|[n e] es IH]; intros s bs s'; simpl; [intros [= _ <-]; auto|]. destruct (lower_expr root e s) as [[r s1]|] eqn:E1; [|discriminate].
  destruct (lower_exports root es s1) as [[bs1 s2]|] eqn:E2; [|discriminate]. intros [= _ <-] F P. inversion F as [|? ? A B]; subst. eapply IH; eauto. exact (lower_expr_prompt _ _ _ _ _ A E1 P).
Qed.
Lemma scope_prompt root stmts : Forall (fun st => stmt_prompt st = true) stmts -> (forall n b, In (SScope n b) stmts -> prompt_closure (scope_closure n b)) ->
  forall name penv wanted sc, lower_scope root name (with_closures stmts) penv wanted = Some sc -> everywhere prompt_scope sc.
Proof.
  intros F C name penv wanted sc E. rewrite Forall_forall in F. destruct (run_scope _ _ _ _ _ _ E) as (s00 & s1 & s2 & s3 & R & _).
  destruct (import_names_spec _ _ _ _ (ru_import _ _ _ _ _ _ _ _ R)) as (B1 & _). destruct (declare_spec (vars_of stmts) 0 s00) as (A1 & _).
  assert (P0 : prompt (declare_vars (vars_of stmts) 0 s00)) by (unfold prompt; rewrite A1, B1; constructor).
  destruct (ru_loop _ _ _ _ _ _ _ _ R) as (deps & El). apply loop_prompt in El; auto.
  2: { apply Forall_forall. intros (n & w) H. simpl. apply pending_In in H as [(e & H & ->)|(b & H & ->)]; simpl; [apply (F _ H)|apply C; auto]. }
  pose proof (binds_prompt _ _ _ _ _ _ (ru_binds _ _ _ _ _ _ _ _ R)) as P2. specialize (P2 ltac:(apply Forall_forall; intros (n & e) H; apply vars_In in H; apply (F _ H)) El).
  assert (P3 : prompt s3).
  { pose proof (ru_exports _ _ _ _ _ _ _ _ R) as Ex. destruct root; [|subst; auto]. eapply exports_prompt; eauto. apply Forall_forall. intros (n & e) H. assert (G : In (SExport n e) stmts); [|apply (F _ G)].
    clear -H. induction stmts as [|[m x|m x|m b|m x] l IH]; simpl in H; [contradiction|right; auto|right; auto|right; auto|]. destruct H as [[= -> ->]|H]; [left; auto|right; auto]. }
  unfold prompt in P3. rewrite Forall_forall in P3. constructor.
  - intros r ops H. rewrite (ru_items _ _ _ _ _ _ _ _ R) in H. exact (P3 _ H).
  - intros c H. rewrite (ru_items _ _ _ _ _ _ _ _ R) in H. exact (P3 _ H).
Qed.
Lemma closures_prompt st : stmt_prompt st = true -> match st with SScope n b => prompt_closure (scope_closure n b) | _ => True end.
Proof.
  induction st as [n e|n e|n b IH|n e] using stmt_ind'; intros H; auto. simpl in H. rewrite forallb_forall in H. rewrite Forall_forall in IH. intros penv wanted child E. eapply scope_prompt; [| |exact E].
  - apply Forall_forall. exact H.
  - intros m c Hc. apply (IH _ Hc). apply H; auto.
Qed.
Lemma tree_tame stmts p : forallb stmt_prompt stmts = true -> lower_tree stmts = Some p -> everywhere tame p.
Proof.
  intros H E. rewrite forallb_forall in H. apply (everywhere_impl prompt_scope tame prompt_tame). eapply scope_prompt; [| |exact E].
  - apply Forall_forall. exact H.
  - intros m c Hc. apply (closures_prompt (SScope m c)). apply H; auto.
Qed.
