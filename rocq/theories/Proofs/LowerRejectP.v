(** What lowering accepts makes sense. *)
From Verif Require Import Model.RenderM Model.LowerM Spec.DdirSpec Spec.SourceSpec Proofs.DdirP Proofs.DdirMeansP Proofs.OptimizeP Proofs.LowerP Proofs.LowerScopeP Proofs.LowerTreeP Proofs.LowerAcceptP.
Local Open Scope nat_scope.

Lemma seen_names' root s s' e : same_names s s' -> seen root s' e -> seen root s e.
Proof. intros [A B C]. apply seen_names. split; auto. Qed.
Lemma lower_expr_seen root e : forall s r s', lower_expr root e s = Some (r, s') -> seen root s e.
Proof.
  assert (One : forall e0 (mk : Ref -> Node) s r s', (forall s r s', lower_expr root e0 s = Some (r, s') -> seen root s e0) -> (' (r, s) <- lower_expr root e0 s; Some (push_op (mk r) s)) = Some (r, s') -> seen root s e0).
  { intros e0 mk s r s' H. destruct (lower_expr root e0 s) as [[r1 s1]|] eqn:E; [|discriminate]. intros _. eapply H; eauto. }
  induction e as [k|k|k|sc f|e p IHe|l q p IHl IHr|e red IHe|e t IHe|e IHe|e t IHe|e IHe|e t IHe|e lab IHe|es IHes|e IHe] using expr_ind'; intros s r s' E;
    try (simpl in E; exact (One _ _ _ _ _ IHe E)).
  - intros x [<-|[]]. simpl in E. unfold input_ref in E. destruct root; [auto|discriminate].
  - intros x [<-|[]]. simpl in E. unfold trace_ref in E. destruct root; [auto|discriminate].
  - intros x [<-|[]]. simpl in E. destruct (lookup (ls_env s) k); [discriminate|congruence].
  - intros x [<-|[]]. simpl in E. destruct (qualified_ref sc f s); [discriminate|congruence].
  - simpl in E. destruct (lower_expr root l s) as [[lr s1]|] eqn:E1; [|discriminate]. destruct (lower_expr root q _) as [[rr s2]|] eqn:E2; [|discriminate].
    apply IHr in E2. pose proof (lower_expr_names _ _ _ _ _ E1) as N1. apply IHl in E1. intros x Hx. simpl in Hx. apply in_app_or in Hx as [Hx|Hx]; [apply E1; auto|].
    refine (seen_names' root s _ q _ E2 x Hx). eapply names_trans; [exact N1|apply push_names].
  - simpl in E. destruct (lower_expr root e s) as [[lr s1]|] eqn:E1; [|discriminate]. eapply IHe; eauto.
  - rewrite lower_concat_eq in E. assert (G : forall s rs s', lower_each root es s = Some (rs, s') -> forall e, In e es -> seen root s e).
    { clear E s r s'. induction IHes as [|e es He _ IH]; intros s rs s'; cbn [lower_each]; [intros _ x []|]. destruct (lower_expr root e s) as [[r1 s1]|] eqn:E1; [|discriminate].
      destruct (lower_each root es s1) as [[rs1 s2]|] eqn:E2; [|discriminate]. intros _ x [<-|Hx]; [eapply He; eauto|]. apply (seen_names' root s s1); [eapply lower_expr_names; eauto|]. eapply IH; eauto. }
    destruct (lower_each root es s) as [[rs s1]|] eqn:El; [|discriminate]. intros x Hx. simpl in Hx. apply in_flat_map in Hx as (e & He & Hx). exact (G _ _ _ El e He x Hx).
Qed.
Lemma binds_seen root all vs : forall s bs s', lower_binds root all vs s = Some (bs, s') -> same_names s s' /\ forall n e, In (n, e) vs -> seen root s e.
Proof.
  induction vs as [|[n e] vs IH]; intros s bs s'; simpl; [intros [= _ <-]; split; [apply names_refl|intros n e []]|]. destruct (lower_expr root e s) as [[r s1]|] eqn:E1; [|discriminate]. destruct (var_id all 0 n); [|discriminate].
  destruct (lower_binds root all vs s1) as [[bs1 s2]|] eqn:E2; [|discriminate]. intros [= _ <-]. pose proof (lower_expr_names _ _ _ _ _ E1) as N1. destruct (IH _ _ _ E2) as (N2 & H). split; [eapply names_trans; eauto|].
  intros m e' [[= <- <-]|Hm]; [eapply lower_expr_seen; eauto|]. eapply seen_names'; eauto.
Qed.
Lemma exports_seen root es : forall s xs s', lower_exports root es s = Some (xs, s') -> forall n e, In (n, e) es -> seen root s e.
Proof.
  induction es as [|[n e] es IH]; intros s bs s'; simpl; [intros _ n e []|]. destruct (lower_expr root e s) as [[r s1]|] eqn:E1; [|discriminate].
  destruct (lower_exports root es s1) as [[bs1 s2]|] eqn:E2; [|discriminate]. intros _ m e' [[= <- <-]|Hm]; [eapply lower_expr_seen; eauto|]. eapply seen_names'; [eapply lower_expr_names; eauto|]. eapply IH; eauto.
Qed.
Lemma imports_there names penv : forall s s', import_names names penv s = Some s' -> forall n, In n names -> lookup penv n <> None.
Proof.
  induction names as [|x names IH]; intros s s'; simpl; [intros _ n []|]. destruct (lookup penv x) as [from|] eqn:E; [|discriminate]. intros E' n [<-|Hn]; [congruence|]. eapply IH; eauto.
Qed.
Lemma fields_there wanted s xs : field_exports wanted s = Some xs -> forall f, In f wanted -> lookup (ls_env s) f <> None.
Proof.
  unfold field_exports. revert xs. induction wanted as [|g wanted IH]; intros xs; [intros _ f []|]. cbn [mapO]. destruct (lookup (ls_env s) g) eqn:E; [|discriminate].
  destruct (mapO _ wanted) as [ys|]; [|discriminate]. intros _ f [<-|Hf]; [congruence|]. eapply IH; eauto.
Qed.

Section Back.
Variables (root : bool) (body : list Stmt).
Hypothesis (ND : NoDup (flat_map stmt_name body)).
(** What closures, having succeeded, say of their bodies. *)
Definition fit (b : list Stmt) (penv : list (string * Ref)) (wanted : list string) : Prop :=
  body_ok false b /\ (forall m, In m (body_free b) -> lookup penv m <> None) /\ forall f, In f wanted -> is_field b f.
Hypothesis (Closures : forall n b, In (SScope n b) body -> forall penv wanted child, scope_closure n b penv wanted = Some child -> fit b penv wanted).

Record kept (Q : list string) (s : LS) : Prop := {
  ke_env : forall m, lookup (ls_env s) m <> None -> (exists e, In (SVar m e) body) \/ (root = false /\ In m (body_free body)) \/ (In m Q /\ exists e, In (SLet m e) body);
  ke_subs : forall m, lookup (ls_children s) m <> None -> In m Q /\ exists b, In (SScope m b) body }.
Local Notation all := (pending_of (with_closures body)).
Lemma kept_names Q s s' : same_names s s' -> kept Q s -> kept Q s'.
Proof. intros [E1 E2 E3] [H1 H2]. split; rewrite ?E1, ?E2; auto. Qed.
Lemma kept_work Q n w s s' : kept Q s -> In (n, w) all -> do_work root body n w s = Some s' -> kept (n :: Q) s'.
Proof.
  intros K Ha E. apply pending_In in Ha as [(e & Hs & ->)|(b & Hs & ->)]; simpl in E.
  - destruct (lower_expr root e s) as [[r s1]|] eqn:E1; [|discriminate]. injection E as <-. apply (kept_names Q s s1 (lower_expr_names _ _ _ _ _ E1)) in K as [K1 K2]. split; simpl ls_env; simpl ls_children.
    + intros m. simpl. destruct (String.eqb_spec n m); [intros _; right; right; subst; split; [left; auto|eauto]|]. intros H. apply K1 in H as [H|[H|(H & H')]]; auto.
    + intros m H. apply K2 in H as (H & H'). split; simpl; auto.
  - destruct (scope_closure n b (ls_env s) _) as [child|] eqn:Ec; [|discriminate]. injection E as <-. destruct K as [K1 K2]. split; simpl ls_env; simpl ls_children.
    + intros m H. apply K1 in H as [H|[H|(H & H')]]; auto. right; right. split; simpl; auto.
    + intros m. simpl. destruct (String.eqb_spec n m); [intros _; subst; split; [left; auto|eauto]|]. intros H. apply K2 in H as (H & H'). split; simpl; auto.
Qed.
Lemma loop_order fuel : forall P D s s' Q, lower_pending root body fuel P D s = Some s' -> NoDup (map fst P) -> incl P all -> kept Q s ->
  (exists Q', kept Q' s') /\
  exists rank : string -> nat, forall n w, In (n, w) P -> exists s1 s2 Q1, kept Q1 s1 /\ do_work root body n w s1 = Some s2 /\ forall m, In m Q1 -> In m Q \/ rank m < rank n.
Proof.
  induction fuel as [|fuel IH]; intros P D s s' Q; (destruct P as [|p0 P0] eqn:EP; [intros [= <-] _ _ K; split; [eauto|exists (fun _ => 0); intros n w []]|]); [discriminate|]. rewrite <- EP. rewrite EP at 1. cbn [lower_pending]. rewrite <- EP.
  destruct (take_ready D P) as [[[n w] rest]|] eqn:Et; [|discriminate]. destruct (do_work root body n w s) as [s1|] eqn:Ew; [|discriminate]. intros E N I K.
  apply take_ready_split in Et. pose proof (Permutation_NoDup (Permutation_map fst Et) N) as N'. simpl in N'. apply NoDup_cons_iff in N' as (Nn & N').
  assert (Hi : In (n, w) P) by (eapply Permutation_in; [apply Permutation_sym, Et|left; auto]).
  destruct (IH rest _ s1 s' (n :: Q) E N') as (Kf & rank & H).
  { intros p Hp. apply I. eapply Permutation_in; [apply Permutation_sym, Et|right; auto]. } { eapply kept_work; eauto. }
  split; auto. exists (fun m => if String.eqb m n then 0 else S (rank m)). intros n' w' Hi'. apply (Permutation_in _ Et) in Hi' as [[= <- <-]|Hi'].
  - exists s, s1, Q. split; auto.
  - destruct (H n' w' Hi') as (t1 & t2 & Q1 & A & B & C). exists t1, t2, Q1. split; auto. split; auto. intros m Hm. destruct (String.eqb_spec n' n); [subst; exfalso; apply Nn; exact (in_map fst _ _ Hi')|].
    apply C in Hm as [[<-|Hm]|Hm]; [rewrite String.eqb_refl; right; lia|auto|]. destruct (String.eqb m n); right; lia.
Qed.

Lemma visible_kept Q s m : kept Q s -> lookup (ls_env s) m <> None -> visible root body m.
Proof.
  intros K H. apply (ke_env _ _ K) in H as [(e & H)|[(H & H')|(_ & e & H)]]; [left; exists e; auto|right|left; exists e; auto]. split; auto. apply body_free_apart; auto.
Qed.
Lemma ordered_kept Q s m : kept Q s -> is_ordered body m -> lookup (ls_env s) m <> None \/ lookup (ls_children s) m <> None -> In m Q.
Proof.
  intros K O [H|H]; [|apply (ke_subs _ _ K) in H; tauto]. apply in_all_ordered in O. pose proof (Permutation_NoDup (names_split body) ND) as N.
  apply (ke_env _ _ K) in H as [(e & H)|[(_ & H)|(H & _)]]; auto; exfalso.
  - apply vars_In in H. apply (in_map fst) in H. simpl in H. clear -O N H. induction (map fst all) as [|x l IH]; [contradiction|]. simpl in N. apply NoDup_cons_iff in N as (N1 & N2). destruct O as [->|O]; auto. apply N1, in_or_app. auto.
  - apply body_free_apart in H. apply H. apply (Permutation_in m (Permutation_sym (names_split body))), in_or_app. auto.
Qed.
Lemma expr_kept Q s st e : kept Q s -> In st body -> stmt_expr st = Some e -> (forall n b f, In (SScope n b) body -> In f (qualified_fields body n) -> is_field b f) -> seen root s e ->
  expr_ok root body e /\ forall m, mentions e m -> is_ordered body m -> In m Q.
Proof.
  intros K Hst Ee Fs Sn. split.
  - intros x Hx. pose proof (Sn x Hx) as H. destruct x; auto; [eapply visible_kept; eauto|]. unfold qualified_ref in H. destruct (lookup (ls_children s) scope) as [i|] eqn:Ei; [|congruence].
    destruct (ke_subs _ _ K scope) as (_ & b & Hb); [congruence|]. exists b. split; auto. apply (Fs scope); auto. apply qualified_In. eauto.
  - intros m [Hm|(f & Hm)] O; pose proof (Sn _ Hm) as H; simpl in H; apply (ordered_kept Q s m K O); [auto|]. right. unfold qualified_ref in H. destruct (lookup (ls_children s) m); congruence.
Qed.
Lemma scope_back name penv wanted sc : (forall n e, In (SExport n e) body -> root = true) -> lower_scope root name (with_closures body) penv wanted = Some sc ->
  body_ok root body /\ (root = false -> forall m, In m (body_free body) -> lookup penv m <> None) /\ (root = false -> forall f, In f wanted -> is_field body f).
Proof.
  intros Hx E. destruct (run_scope _ _ _ _ _ _ E) as (s00 & s1 & s2 & s3 & R & W). pose proof (ru_import _ _ _ _ _ _ _ _ R) as Im. destruct (import_names_spec _ _ _ _ Im) as (_ & _ & _ & B4 & _ & _ & B6).
  destruct (declare_spec (vars_of body) 0 s00) as (_ & _ & _ & _ & A5 & _ & A6 & A7 & _). destruct (ru_loop _ _ _ _ _ _ _ _ R) as (deps & El).
  assert (K0 : kept [] (declare_vars (vars_of body) 0 s00)).
  { split; [|rewrite A5, B4; intros m H; simpl in H; congruence]. intros m H. destruct (in_dec string_dec m (map fst (vars_of body))) as [Hi|Hn].
    - left. apply in_map_iff in Hi as ((m' & e) & <- & Hi). exists e. apply vars_In; auto.
    - rewrite A7 in H by auto. destruct (lookup (ls_env s00) m) as [r|] eqn:Er; [|congruence]. apply B6 in Er as [Er|(Hm & _)]; [discriminate|]. right; left. destruct root; [contradiction|auto]. }
  assert (NP : NoDup (map fst all)).
  { pose proof (Permutation_NoDup (names_split body) ND) as N. revert N. generalize (map fst all). intros l. induction l as [|x l IHl]; simpl; intros N; [constructor|]. apply NoDup_cons_iff in N as (A & B). constructor; [rewrite in_app_iff in A; tauto|auto]. }
  destruct (loop_order _ _ _ _ _ [] El NP (incl_refl _) K0) as ((Qf & K1) & rank & H).
  assert (Sub : forall n b, In (SScope n b) body -> exists s Q, kept Q s /\ fit b (ls_env s) (qualified_fields body n) /\ forall m, In m Q -> rank m < rank n).
  { intros n b Hb. destruct (H n (WScope (scope_closure n b))) as (t1 & t2 & Q & A & B & C); [apply pending_In; right; eauto|]. exists t1, Q. split; auto. simpl in B.
    destruct (scope_closure n b (ls_env t1) _) as [child|] eqn:Ec; [|discriminate]. split; [eapply Closures; eauto|]. intros m Hm. destruct (C m Hm) as [[]|]; auto. }
  assert (Fs : forall n b f, In (SScope n b) body -> In f (qualified_fields body n) -> is_field b f).
  { intros n b f Hb Hf. destruct (Sub n b Hb) as (_ & _ & _ & (_ & _ & F) & _). auto. }
  destruct (binds_seen _ _ _ _ _ _ (ru_binds _ _ _ _ _ _ _ _ R)) as (N2 & Bs). pose proof (kept_names _ _ _ N2 K1) as K2.
  split; [apply (BodyOk root body rank)|split].
  - exact ND.
  - intros n e He. destruct (H n (WLet e)) as (t1 & t2 & Q & A & B & C); [apply pending_In; left; eauto|]. simpl in B. destruct (lower_expr root e t1) as [[r t3]|] eqn:E1; [|discriminate].
    destruct (expr_kept Q t1 (SLet n e) e A He eq_refl Fs (lower_expr_seen _ _ _ _ _ E1)) as (F & G). split; auto. intros m Hm O. destruct (C m (G m Hm O)) as [[]|]; auto.
  - intros n e [He|He].
    + apply (expr_kept Qf s1 (SVar n e) e K1 He eq_refl Fs). apply (Bs n e). apply vars_In; auto.
    + pose proof (Hx n e He) as Rt. pose proof (ru_exports _ _ _ _ _ _ _ _ R) as Ex. rewrite Rt in Ex. apply (expr_kept Qf s2 (SExport n e) e K2 He eq_refl Fs). rewrite Rt. eapply exports_seen; [exact Ex|]. apply exports_In; eauto.
  - exact Hx.
  - intros n b Hb. destruct (Sub n b Hb) as (_ & _ & _ & (F & _) & _). exact F.
  - intros n b Hb m Hm. destruct (Sub n b Hb) as (s & Q & K & (_ & F & _) & C).
    assert (Hf : lookup (ls_env s) m <> None) by (apply F, body_free_In; inversion Hm; subst; split; eauto).
    split; [eapply visible_kept; eauto|]. intros O. apply C. eapply ordered_kept; eauto.
  - intros -> m Hm. eapply imports_there; eauto.
  - intros -> f Hf. pose proof (ru_exports _ _ _ _ _ _ _ _ R) as Ex. simpl in Ex. subst s3. pose proof (fields_there _ _ _ W f Hf) as Hl. apply (ke_env _ _ K2) in Hl as [(e & Hl)|[(_ & Hl)|(_ & e & Hl)]].
    + left; exists e; auto. + right. apply body_free_In in Hl. tauto. + left; exists e; auto.
Qed.
End Back.

Lemma no_exports b : forallb exports_none b = true -> (forall n e, ~ In (SExport n e) b) /\ exports_at_root b.
Proof. rewrite forallb_forall. intros H. split; [intros n e Hi; apply H in Hi; discriminate|]. intros n c Hi. apply H; auto. Qed.
Lemma closures_back st : names_apart st -> exports_none st = true -> match st with SScope n b => forall penv wanted child, scope_closure n b penv wanted = Some child -> fit b penv wanted | _ => True end.
Proof.
  induction st as [n e|n e|n b IH|n e] using stmt_ind'; auto. intros A X penv wanted child E. cbn [names_apart] in A. destruct A as (ND & A). simpl in X. rewrite Forall_forall in IH.
  assert (A' : forall st, In st b -> names_apart st) by (clear -A; induction b as [|st b IHb]; [intros ? []|]; destruct A as (A1 & A2); intros st' [<-|H]; auto).
  destruct (no_exports b X) as (X1 & X2). destruct (scope_back false b ND) with (name := n) (penv := penv) (wanted := wanted) (sc := child) as (B & F & W); auto.
  - intros m c Hc penv' wanted' child' E'. eapply (IH _ Hc); eauto.
  - intros m e He. destruct (X1 m e He).
  - split; auto.
Qed.
Lemma tree_back stmts p : program_apart stmts -> exports_at_root stmts -> lower_tree stmts = Some p -> body_ok true stmts.
Proof.
  intros (ND & A) X E. eapply (scope_back true stmts ND); [| |exact E]; auto. intros n b Hb penv wanted child E'. eapply (closures_back (SScope n b)); eauto.
Qed.
Lemma ok_exports root b : body_ok root b -> exports_at_root b /\ (root = false -> forallb exports_none b = true).
Proof.
  induction 1 as [root b rank ND L V X S IH N]. assert (E : exports_at_root b) by (intros n c Hc; simpl; apply (IH n c Hc); auto). split; auto.
  intros ->. apply forallb_forall. intros [n e|n e|n c|n e] H; simpl; auto; [exact (E n c H)|]. discriminate (X n e H).
Qed.
