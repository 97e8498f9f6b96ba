(** Lowering of a program: the tree means what the text does. *)
From Verif Require Import Model.RenderM Model.LowerM Spec.DdirSpec Spec.SourceSpec Proofs.DdirP Proofs.DdirMeansP Proofs.OptimizeP Proofs.LowerP Proofs.LowerScopeP.
Local Open Scope nat_scope.

Section StmtInd.
Variable P : Stmt -> Prop.
Hypothesis (H1 : forall n e, P (SLet n e)) (H2 : forall n e, P (SVar n e)) (H3 : forall n b, Forall P b -> P (SScope n b)) (H4 : forall n e, P (SExport n e)).
Lemma stmt_ind' st : P st.
Proof. revert st. fix F 1. intros [n e|n e|n b|n e]; [apply H1|apply H2| |apply H4]. apply H3. induction b as [|st b IH]; constructor; [apply F|exact IH]. Qed.
End StmtInd.

Lemma mem_In x l : mem x l = true <-> In x l.
Proof. unfold mem. rewrite existsb_exists. split; [intros (y & H & E); apply String.eqb_eq in E; subst; auto|]. intros H. exists x. split; auto. apply String.eqb_refl. Qed.

(** ** The names of a body *)
Lemma import_names_spec names penv : forall s s', import_names names penv s = Some s' ->
  ls_items s' = ls_items s /\ ls_inputs s' = ls_inputs s /\ ls_traces s' = ls_traces s /\ ls_children s' = ls_children s /\ ls_fields s' = ls_fields s /\
  (exists more, ls_imports s' = ls_imports s ++ more /\ map im_name more = names /\ Forall (fun im => exists p, im_from im = SParent p /\ lookup penv (im_name im) = Some p) more) /\
  (forall n r, lookup (ls_env s') n = Some r -> lookup (ls_env s) n = Some r \/ In n names /\ exists i p, r = RImport i /\ nth_error (ls_imports s') i = Some {| im_name := n; im_from := SParent p |}).
Proof.
  induction names as [|x names IH]; intros s s'; simpl.
  - intros [= <-]. repeat (split; [reflexivity|]). split; [exists []; rewrite app_nil_r; auto|auto].
  - destruct (lookup penv x) as [from|] eqn:Ef; [|discriminate]. intros E. apply IH in E as (A1 & A2 & A3 & A4 & A5 & (more & Em & En & Fm) & K). simpl in *.
    repeat (split; [assumption|]). split.
    + exists ({| im_name := x; im_from := SParent from |} :: more). rewrite Em, <- app_assoc. split; auto. split; [simpl; f_equal; auto|]. constructor; auto. exists from. auto.
    + intros n r E. destruct (K n r E) as [E'|(Hn & i & p & Ei)]; [|right; split; auto; exists i, p; auto]. destruct (String.eqb_spec x n); [|auto]. injection E' as <-. subst n. right. split; auto.
      exists (length (ls_imports s)), from. split; auto. rewrite Em, <- app_assoc, nth_error_app2, Nat.sub_diag by lia. auto.
Qed.
Lemma declare_spec vs : forall idx s, let s' := declare_vars vs idx s in
  ls_items s' = ls_items s /\ ls_imports s' = ls_imports s /\ ls_inputs s' = ls_inputs s /\ ls_traces s' = ls_traces s /\ ls_children s' = ls_children s /\ ls_fields s' = ls_fields s /\
  (forall n r, lookup (ls_env s') n = Some r -> (exists i, r = RVar i /\ i < idx + length vs) \/ lookup (ls_env s) n = Some r) /\
  (forall n, ~ In n (map fst vs) -> lookup (ls_env s') n = lookup (ls_env s) n) /\
  (NoDup (map fst vs) -> forall i n e, nth_error vs i = Some (n, e) -> lookup (ls_env s') n = Some (RVar (idx + i))).
Proof.
  induction vs as [|[x e0] vs IH]; intros idx s; simpl.
  - repeat (split; [reflexivity|]). split; auto. split; auto. intros _ [|i] n e; discriminate.
  - destruct (IH (S idx) (ls_with_env s ((x, RVar idx) :: ls_env s))) as (A1 & A2 & A3 & A4 & A5 & A6 & B & C & D). simpl in *. repeat (split; [assumption|]). split; [|split].
    + intros n r E. apply B in E as [(i & -> & Hi)|E]; [left; exists i; split; auto; lia|]. destruct (String.eqb x n); [injection E as <-; left; exists idx; split; auto; lia|auto].
    + intros n Hn. rewrite C by tauto. destruct (String.eqb_spec x n); [subst; tauto|auto].
    + intros ND i n e E. apply NoDup_cons_iff in ND as (Hx & ND). destruct i as [|i]; simpl in E.
      * injection E as <- <-. rewrite C by auto. rewrite String.eqb_refl, Nat.add_0_r. auto.
      * rewrite (D ND i n e E). do 2 f_equal. lia.
Qed.
Lemma var_id_spec vs : forall idx i n e, NoDup (map fst vs) -> nth_error vs i = Some (n, e) -> var_id vs idx n = Some (idx + i).
Proof.
  induction vs as [|[x e0] vs IH]; intros idx [|i] n e ND E; simpl in *; try discriminate; apply NoDup_cons_iff in ND as (Hx & ND).
  - injection E as <- <-. replace (var_id vs (S idx) x) with (@None nat); [rewrite String.eqb_refl; f_equal; lia|]. clear -Hx. revert idx. induction vs as [|[y e] vs IH]; intros idx; simpl in *; auto.
    rewrite <- (IH ltac:(tauto) (S idx)). destruct (String.eqb_spec y x); [subst; tauto|auto].
  - rewrite (IH (S idx) i n e ND E). f_equal. lia.
Qed.
Definition with_closures (stmts : list Stmt) : list (Stmt * option closure) := map (fun st => (st, lower_stmt st)) stmts.
Definition scope_closure (n : string) (b : list Stmt) : closure := fun penv wanted => lower_scope false n (with_closures b) penv wanted.
Lemma pending_In stmts n w : In (n, w) (pending_of (with_closures stmts)) <->
  (exists e, In (SLet n e) stmts /\ w = WLet e) \/ (exists b, In (SScope n b) stmts /\ w = WScope (scope_closure n b)).
Proof.
  induction stmts as [|st stmts IH]; simpl; [split; [intros []|intros [(e & [] & _)|(b & [] & _)]]|]. destruct st as [m e|m e|m b|m e]; simpl.
  - rewrite IH. split.
    + intros [[= <- <-]|[(e' & H & ->)|(b & H & ->)]]; [left; eauto|left; eauto|right; eauto].
    + intros [(e' & [[= -> ->]|H] & ->)|(b & [H|H] & ->)]; auto; [right; left; eauto|discriminate|right; right; eauto].
  - rewrite IH. split; [intros [(e' & H & ->)|(b & H & ->)]; eauto|]. intros [(e' & [H|H] & ->)|(b & [H|H] & ->)]; try discriminate; eauto.
  - rewrite IH. split.
    + intros [[= <- <-]|[(e' & H & ->)|(b' & H & ->)]]; [right; exists b; auto|left; eauto|right; eauto].
    + intros [(e' & [H|H] & ->)|(b' & [[= -> ->]|H] & ->)]; auto; [discriminate|right; left; eauto|right; right; eauto].
  - rewrite IH. split; [intros [(e' & H & ->)|(b & H & ->)]; eauto|]. intros [(e' & [H|H] & ->)|(b & [H|H] & ->)]; try discriminate; eauto.
Qed.
Lemma names_split stmts : Permutation (flat_map stmt_name stmts) (map fst (pending_of (with_closures stmts)) ++ map fst (vars_of stmts)).
Proof.
  induction stmts as [|st stmts IH]; simpl; auto. destruct st as [m e|m e|m b|m e]; simpl; auto. apply Permutation_cons_app; auto.
Qed.
Lemma vars_In stmts n e : In (n, e) (vars_of stmts) <-> In (SVar n e) stmts.
Proof.
  induction stmts as [|st stmts IH]; simpl; [tauto|]. destruct st as [m e'|m e'|m b|m e']; simpl; rewrite IH; split; try (intros [H|H]; try discriminate; auto; fail); auto.
  - intros [[= -> ->]|H]; auto. - intros [[= -> ->]|H]; auto.
Qed.
Lemma body_free_apart stmts n : In n (body_free stmts) -> ~ In n (flat_map stmt_name stmts).
Proof. unfold body_free. intros H. apply (proj1 (filter_In _ _ _)) in H as (_ & H). rewrite <- mem_In. intros K. rewrite K in H. discriminate. Qed.
Lemma map_fst_with stmts : map fst (with_closures stmts) = stmts.
Proof. unfold with_closures. rewrite map_map. simpl. apply map_id. Qed.

(** ** The states of a scope's lowering *)
Record run (root : bool) (stmts : list Stmt) (penv : list (string * Ref)) (sc : Scope) (s00 s1 s2 s3 : LS) : Prop := {
  ru_import : import_names (if root then [] else body_free stmts) penv ls_new = Some s00;
  ru_loop : exists deps, lower_pending root stmts (length (pending_of (with_closures stmts))) (pending_of (with_closures stmts)) deps (declare_vars (vars_of stmts) 0 s00) = Some s1;
  ru_binds : lower_binds root (vars_of stmts) (vars_of stmts) s1 = Some (sc_binds sc, s2);
  ru_items : sc_items sc = ls_items s3;
  ru_imports : sc_imports sc = ls_imports s3;
  ru_vars : sc_vars sc = map fst (vars_of stmts);
  ru_exports : if root then lower_exports root (exports_of stmts) s2 = Some (sc_exports sc, s3) else s3 = s2 }.
Lemma run_scope root name stmts penv wanted sc : lower_scope root name (with_closures stmts) penv wanted = Some sc ->
  exists s00 s1 s2 s3, run root stmts penv sc s00 s1 s2 s3 /\ if root then True else field_exports wanted s3 = Some (sc_exports sc).
Proof.
  unfold lower_scope. rewrite map_fst_with. destruct (import_names _ penv ls_new) as [s00|] eqn:E0; [|discriminate].
  destruct (lower_pending _ _ _ _ _ _) as [s1|] eqn:E1; [|discriminate]. destruct (lower_binds _ _ _ s1) as [[bs s2]|] eqn:E2; [|discriminate]. destruct root.
  - destruct (lower_exports true (exports_of stmts) s2) as [[es s3]|] eqn:E3; [|discriminate]. intros [= <-]. exists s00, s1, s2, s3. split; auto. split; simpl; eauto.
  - destruct (field_exports wanted s2) as [es|] eqn:E3; [|discriminate]. intros [= <-]. exists s00, s1, s2, s2. split; auto. split; simpl; eauto.
Qed.

Section Run.
Variables (root : bool) (stmts : list Stmt) (penv : list (string * Ref)) (sc : Scope) (s00 s1 s2 s3 : LS).
Hypothesis (R : run root stmts penv sc s00 s1 s2 s3) (ND : NoDup (flat_map stmt_name stmts)).
Hypothesis (Cs : forall n b, In (SScope n b) stmts -> closure_sane (scope_closure n b)).
Local Notation vs := (vars_of stmts).
Local Notation nv := (length vs).
Local Notation pending := (pending_of (with_closures stmts)).
Local Notation s0 := (declare_vars vs 0 s00).

Lemma nodup_both : NoDup (map fst pending) /\ NoDup (map fst vs) /\ forall n, In n (map fst pending) -> ~ In n (map fst vs).
Proof.
  pose proof (Permutation_NoDup (names_split stmts) ND) as N. clear -N. induction (map fst pending) as [|x l IH]; simpl in *; [split; [constructor|]; split; auto|].
  apply NoDup_cons_iff in N as (Hx & N). destruct (IH N) as (A & B & C). rewrite in_app_iff in Hx. split; [constructor; tauto|]. split; auto. intros n [<-|H]; auto.
Qed.
Lemma env0 n r : lookup (ls_env s0) n = Some r -> (exists i, r = RVar i /\ i < nv) \/
  (In n (body_free stmts) /\ exists i p, r = RImport i /\ nth_error (ls_imports s00) i = Some {| im_name := n; im_from := SParent p |}).
Proof.
  intros E. destruct (declare_spec vs 0 s00) as (_ & _ & _ & _ & _ & _ & B & _). apply B in E as [H|E]; auto. right.
  destruct (import_names_spec _ _ _ _ (ru_import _ _ _ _ _ _ _ _ R)) as (_ & _ & _ & _ & _ & _ & K). apply K in E as [E|(Hn & H)]; [discriminate|]. destruct root; [contradiction|auto].
Qed.
Lemma sane0 : sane nv s0 /\ ls_items s0 = [] /\ ls_children s0 = [] /\ ls_fields s0 = [].
Proof.
  destruct (declare_spec vs 0 s00) as (A1 & A2 & A3 & A4 & A5 & A6 & _). destruct (import_names_spec _ _ _ _ (ru_import _ _ _ _ _ _ _ _ R)) as (B1 & B2 & B3 & B4 & B5 & _). simpl in *.
  rewrite B1 in A1. rewrite B2 in A3. rewrite B3 in A4. rewrite B4 in A5. rewrite B5 in A6. split; auto. split.
  - rewrite A3. intros n i [].
  - rewrite A4. intros n i [].
  - intros n r E. apply env0 in E as [(i & -> & H)|(_ & i & p & -> & H)]; simpl; auto. rewrite A2. apply nth_error_Some. congruence.
  - intros sc' f r. unfold qualified_ref. rewrite A5. discriminate.
  - rewrite A1. intros [|n]; discriminate.
  - rewrite A1. intros c [].
Qed.
Lemma pending_fresh n w : In (n, w) pending -> work_sane w /\ fresh s0 n.
Proof.
  intros H. destruct sane0 as (_ & _ & Ec & Ef). split; [apply pending_In in H as [(e & _ & ->)|(b & Hb & ->)]; [exact I|apply Cs; auto]|].
  unfold fresh. rewrite Ec, Ef. split; auto. destruct (lookup (ls_env s0) n) as [r|] eqn:E; auto. exfalso.
  assert (Hp : In n (map fst pending)) by apply (in_map fst _ _ H).
  destruct (declare_spec vs 0 s00) as (_ & _ & _ & _ & _ & _ & _ & C & _). rewrite C in E by (apply nodup_both; auto).
  destruct (import_names_spec _ _ _ _ (ru_import _ _ _ _ _ _ _ _ R)) as (_ & _ & _ & _ & _ & _ & K). apply K in E as [E|(Hn & _)]; [discriminate|]. destruct root; [contradiction|].
  apply body_free_apart in Hn. apply Hn. apply (Permutation_in n (Permutation_sym (names_split stmts))). apply in_or_app. auto.
Qed.
Lemma run_sane : mono s0 s1 /\ sane nv s1 /\ sane nv s2 /\ sane nv s3 /\ ext s1 s2 /\ same_names s1 s2 /\ ext s2 s3 /\ same_names s2 s3 /\
  (forall n, ~ In n (flat_map stmt_name stmts) -> lookup (ls_env s3) n = lookup (ls_env s00) n) /\
  (forall b, In b (sc_binds sc) -> ref_in nv s3 (here s3) (bi_value b)) /\
  (root = true -> forall x, In x (sc_exports sc) -> ref_in nv s3 (here s3) (ex_value x)) /\
  Forall2 (fun ne b => var_id vs 0 (fst ne) = Some (bi_var b)) vs (sc_binds sc).
Proof.
  destruct (ru_loop _ _ _ _ _ _ _ _ R) as (deps & El). destruct sane0 as (S0 & _).
  destruct (loop_sane nv root stmts _ _ _ _ _ El S0 pending_fresh (proj1 nodup_both)) as (M & S1 & K).
  destruct (binds_sane nv root _ _ _ _ _ (ru_binds _ _ _ _ _ _ _ _ R) S1) as (X2 & N2 & S2 & B2 & F2).
  assert (H3 : ext s2 s3 /\ same_names s2 s3 /\ sane nv s3 /\ (root = true -> forall x, In x (sc_exports sc) -> ref_in nv s3 (here s3) (ex_value x))).
  { pose proof (ru_exports _ _ _ _ _ _ _ _ R) as E3. destruct root.
    - destruct (exports_sane nv true _ _ _ _ E3 S2) as (X3 & N3 & S3 & B3 & _). auto.
    - subst s3. split; [apply ext_refl|]. split; [apply names_refl|]. split; auto. discriminate. }
  destruct H3 as (X3 & N3 & S3 & B3). repeat (split; [assumption|]). split; [|split; [|split]]; auto.
  - intros n Hn. rewrite (sn_env _ _ N3), (sn_env _ _ N2).
    assert (Hn' : ~ In n (map fst pending) /\ ~ In n (map fst vs)).
    { split; intros H; apply Hn, (Permutation_in n (Permutation_sym (names_split stmts))), in_or_app; auto. }
    rewrite (proj1 (K n (proj1 Hn'))). destruct (declare_spec vs 0 s00) as (_ & _ & _ & _ & _ & _ & _ & C & _). apply C, Hn'.
  - intros b Hb. eapply ref_in_ext; [exact X3|apply ext_here, X3|]. auto.
Qed.
Lemma ref_in_ok n r : ref_in nv s3 n r -> ref_ok sc n r.
Proof.
  destruct r; simpl; rewrite ?(ru_items _ _ _ _ _ _ _ _ R), ?(ru_imports _ _ _ _ _ _ _ _ R), ?(ru_vars _ _ _ _ _ _ _ _ R), ?map_length; auto.
Qed.
Lemma run_refs : (forall x, In x (sc_exports sc) -> ref_in nv s3 (here s3) (ex_value x)) -> everywhere refs_ok sc.
Proof.
  intros Hx. destruct run_sane as (_ & _ & _ & S3 & _ & _ & _ & _ & _ & B & _). constructor.
  - split; [|split].
    + rewrite (ru_items _ _ _ _ _ _ _ _ R). intros n it r E Hr. apply ref_in_ok. eapply sa_items; eauto.
    + intros b Hb. rewrite (ru_items _ _ _ _ _ _ _ _ R). apply ref_in_ok, B; auto.
    + intros e He. rewrite (ru_items _ _ _ _ _ _ _ _ R). apply ref_in_ok, Hx; auto.
  - rewrite (ru_items _ _ _ _ _ _ _ _ R). apply S3.
Qed.
End Run.

(** Only the root adds imports: inputs and traces. *)
Definition grows (root : bool) (s s' : LS) : Prop :=
  exists more, ls_imports s' = ls_imports s ++ more /\ Forall (fun im => root = true /\ match im_from im with SParent _ => False | _ => True end) more.
Lemma grows_same root s s' : ls_imports s' = ls_imports s -> grows root s s'.
Proof. intros E. exists []. rewrite app_nil_r. auto. Qed.
Lemma grows_trans root s1 s2 s3 : grows root s1 s2 -> grows root s2 s3 -> grows root s1 s3.
Proof. intros (a & E & A) (b & F & B). exists (a ++ b). rewrite F, E, app_assoc. split; auto. apply Forall_app; auto. Qed.
Lemma expr_grows root e : forall s r s', lower_expr root e s = Some (r, s') -> grows root s s'.
Proof.
  induction e as [n|n|n|sc f|e p IHe|l r p IHl IHr|e red IHe|e t IHe|e IHe|e t IHe|e IHe|e t IHe|e lab IHe|es IHes|e IHe] using expr_ind'; intros s r0 s';
    try (simpl; destruct (lower_expr root e s) as [[r s1]|] eqn:E; [|discriminate]; intros [= <- <-]; eapply grows_trans; [apply (IHe s r s1); auto|apply grows_same; reflexivity]; fail).
  - simpl. unfold input_ref. destruct root; [|discriminate]. destruct (find _ _) as [[m i]|]; intros [= <- <-]; [apply grows_same; auto|]. eexists. split; [reflexivity|]. constructor; auto. simpl. auto.
  - simpl. unfold trace_ref. destruct root; [|discriminate]. destruct (lookup _ _) as [i|]; intros [= <- <-]; [apply grows_same; auto|]. eexists. split; [reflexivity|]. constructor; auto. simpl. auto.
  - simpl. destruct (lookup (ls_env s) n); [|discriminate]. intros [= <- <-]. apply grows_same; auto.
  - simpl. destruct (qualified_ref sc f s); [|discriminate]. intros [= <- <-]. apply grows_same; auto.
  - simpl. destruct (lower_expr root l s) as [[r1 s1]|] eqn:E1; [|discriminate]. destruct (lower_expr root r _) as [[r2 s2]|] eqn:E2; [|discriminate]. intros [= <- <-].
    eapply grows_trans; [apply (IHl _ _ _ E1)|]. eapply grows_trans; [|eapply grows_trans; [apply (IHr _ _ _ E2)|apply grows_same; reflexivity]]. apply grows_same. reflexivity.
  - rewrite lower_concat_eq. destruct (lower_each root es s) as [[rs s1]|] eqn:E; [|discriminate]. intros [= <- <-]. apply (grows_trans root s s1); [|apply grows_same; reflexivity]. revert s rs s1 E.
    induction IHes as [|e es He _ IH]; intros s rs s1; cbn [lower_each]; [intros [= <- <-]; apply grows_same; auto|]. destruct (lower_expr root e s) as [[r s2]|] eqn:E1; [|discriminate].
    destruct (lower_each root es s2) as [[rs' s3]|] eqn:E2; [|discriminate]. intros [= <- <-]. eapply grows_trans; [apply (He _ _ _ E1)|apply (IH _ _ _ E2)].
Qed.
Lemma loop_grows root body : forall fuel pending deps s s', lower_pending root body fuel pending deps s = Some s' -> grows root s s'.
Proof.
  induction fuel as [|fuel IHf]; intros pending deps s s'; simpl; destruct pending as [|p0 pending]; try discriminate; try (intros [= <-]; apply grows_same; auto; fail).
  destruct (take_ready deps (p0 :: pending)) as [[[name w] rest]|]; [|discriminate]. destruct (do_work root body name w s) as [s1|] eqn:Ed; [|discriminate]. intros E.
  apply (grows_trans root s s1); [|apply (IHf _ _ _ _ E)]. destruct w as [e|cl]; simpl in Ed.
  - destruct (lower_expr root e s) as [[r s2]|] eqn:E1; [|discriminate]. injection Ed as <-. eapply grows_trans; [eapply expr_grows; eauto|]. apply grows_same. reflexivity.
  - destruct (cl _ _); [|discriminate]. injection Ed as <-. apply grows_same. auto.
Qed.
Lemma binds_grows root all : forall vs s bs s', lower_binds root all vs s = Some (bs, s') -> grows root s s'.
Proof.
  induction vs as [|[n e] vs IH]; intros s bs s'; simpl; [intros [= <- <-]; apply grows_same; auto|]. destruct (lower_expr root e s) as [[r s1]|] eqn:E1; [|discriminate].
  destruct (var_id all 0 n); [|discriminate]. destruct (lower_binds root all vs s1) as [[bs1 s2]|] eqn:E2; [|discriminate]. intros [= <- <-]. eapply grows_trans; [eapply expr_grows; eauto|eapply IH; eauto].
Qed.
Lemma exports_grows root : forall es s xs s', lower_exports root es s = Some (xs, s') -> grows root s s'.
Proof.
  induction es as [|[n e] es IH]; intros s bs s'; simpl; [intros [= <- <-]; apply grows_same; auto|]. destruct (lower_expr root e s) as [[r s1]|] eqn:E1; [|discriminate].
  destruct (lower_exports root es s1) as [[bs1 s2]|] eqn:E2; [|discriminate]. intros [= <- <-]. eapply grows_trans; [eapply expr_grows; eauto|eapply IH; eauto].
Qed.
Lemma run_grows root stmts penv sc s00 s1 s2 s3 : run root stmts penv sc s00 s1 s2 s3 -> grows root s00 s3.
Proof.
  intros R. destruct (ru_loop _ _ _ _ _ _ _ _ R) as (deps & El). apply (grows_trans root s00 s1).
  - eapply grows_trans; [|eapply loop_grows; eauto]. apply grows_same. apply declare_spec.
  - eapply grows_trans; [eapply binds_grows, (ru_binds _ _ _ _ _ _ _ _ R)|]. pose proof (ru_exports _ _ _ _ _ _ _ _ R) as E. destruct root; [eapply exports_grows; eauto|subst; apply grows_same; auto].
Qed.
Lemma run_only_imports stmts penv sc s00 s1 s2 s3 : run false stmts penv sc s00 s1 s2 s3 -> ls_imports s3 = ls_imports s00.
Proof. intros R. apply run_grows in R as (more & E & F). destruct more as [|x more]; [rewrite E, app_nil_r; auto|]. inversion F as [|? ? (H & _)]. discriminate. Qed.

Lemma field_exports_spec wanted s es : field_exports wanted s = Some es -> Forall2 (fun f e => ex_name e = f /\ lookup (ls_env s) f = Some (ex_value e)) wanted es.
Proof.
  unfold field_exports. revert es. induction wanted as [|f wanted IH]; intros es E; [simpl in E; injection E as <-; constructor|].
  apply mapO_cons_inv in E as (y & r & -> & E1 & E2). destruct (lookup (ls_env s) f) as [x|] eqn:El; [|discriminate]. injection E1 as <-. constructor; auto.
Qed.
Lemma names_apart_iff n b : names_apart (SScope n b) <-> NoDup (flat_map stmt_name b) /\ forall st, In st b -> names_apart st.
Proof.
  cbn [names_apart]. match goal with |- context [?f b] => assert (G : forall b, f b <-> forall st, In st b -> names_apart st) end; [|rewrite G; tauto].
  clear. induction b as [|st b IH]; [simpl; split; [intros _ st []|auto]|]. cbn beta match fix. rewrite IH. simpl. split; [intros (A & B) x [<-|H]; auto|intros H; split; auto].
Qed.
Definition closure_of (st : Stmt) : Prop := match st with SScope n b => names_apart st -> closure_sane (scope_closure n b) | _ => True end.
Lemma all_closures_sane st : closure_of st.
Proof.
  induction st as [n e|n e|n b IH|n e] using stmt_ind'; try exact I. intros A. apply names_apart_iff in A as (ND & A).
  assert (Cs : forall m c, In (SScope m c) b -> closure_sane (scope_closure m c)).
  { intros m c H. rewrite Forall_forall in IH. apply (IH _ H). apply A; auto. }
  split; unfold scope_closure; intros penv wanted child.
  - intros E. apply run_scope in E as (s00 & s1 & s2 & s3 & R & F). apply field_exports_spec in F. induction F as [|f e ws es [H _] _ IHF]; simpl; [auto|f_equal; auto].
  - intros r E Hr. apply run_scope in E as (s00 & s1 & s2 & s3 & R & F). destruct (run_sane _ _ _ _ _ _ _ _ R ND Cs) as (M & _ & _ & _ & X2 & _).
    pose proof (ru_imports _ _ _ _ _ _ _ _ R) as Ei. 
    pose proof (run_only_imports _ _ _ _ _ _ _ R) as G.
    destruct child as [nm is cvs its bs es]. simpl in Hr, Ei. subst is. rewrite G in Hr.
    destruct (import_names_spec _ _ _ _ (ru_import _ _ _ _ _ _ _ _ R)) as (_ & _ & _ & _ & _ & (more & Em & _ & Fm) & _). rewrite Em in Hr. simpl in Hr.
    unfold import_refs in Hr. apply in_flat_map in Hr as (im & Him & Hr). rewrite Forall_forall in Fm. destruct (Fm _ Him) as (p & Ep & Hl). rewrite Ep in Hr. destruct Hr as [<-|[]]. eauto.
  - intros E. apply run_scope in E as (s00 & s1 & s2 & s3 & R & F). eapply run_refs; eauto. intros x Hx. apply field_exports_spec in F.
    destruct (run_sane _ _ _ _ _ _ _ _ R ND Cs) as (_ & _ & _ & S3 & _).
    assert (exists f, lookup (ls_env s3) f = Some (ex_value x)) as (f & Ef); [|eapply sa_env; eauto].
    clear -F Hx. induction F as [|f e ws es [_ H] _ IHF]; [contradiction|]. destruct Hx as [<-|Hx]; eauto.
Qed.

(** ** What scopes mean *)
Definition local_to (loc : string -> option coll) (stmts : list Stmt) : Prop := forall m, loc m <> None -> In m (flat_map stmt_name stmts).
Lemma scope_stmt_iff inputs traces depth outer loc fields n b : stmt_means inputs traces depth outer loc fields (SScope n b) <->
  exists loc' fields', local_to loc' b /\ (forall st, In st b -> stmt_means inputs traces (S depth) (hide loc outer) loc' fields' st) /\
    forall f c, fields n f = Some c -> exists a left, hide loc' (hide loc outer) f = Some a /\ at_times (left_time (S depth)) a = Some left /\ same_coll c left.
Proof.
  cbn [stmt_means]. split; intros (loc' & fields' & L & A & F); exists loc', fields'; (split; [exact L|split; [|exact F]]).
  - clear -A. induction b as [|st b IH]; [intros st []|]. destruct A as (A & B). intros x [<-|H]; auto.
  - clear -A. induction b as [|st b IH]; [exact I|]. split; [apply A; left; auto|]. apply IH. intros x H. apply A. right; auto.
Qed.
Definition closure_means (inputs : nat -> coll) (traces : string -> coll) (b : list Stmt) (cl : closure) : Prop :=
  forall penv wanted child depth look outer, cl penv wanted = Some child ->
  ((forall n r, lookup penv n = Some r -> stands_for true (look r) (outer n)) -> forall ims exs, imported look (sc_imports child) = Some ims -> scope_means (S depth) child ims exs ->
     exists loc fields, local_to loc b /\ (forall st, In st b -> stmt_means inputs traces (S depth) outer loc fields st) /\
       Forall2 (fun f c => stands_for true (Some c) (hide loc outer f)) wanted exs) /\
  ((forall n r, lookup penv n = Some r -> stands_for false (look r) (outer n)) -> forall loc fields, local_to loc b -> (forall st, In st b -> stmt_means inputs traces (S depth) outer loc fields st) ->
     exists ims exs, imported look (sc_imports child) = Some ims /\ scope_means (S depth) child ims exs /\ Forall2 (fun f c => stands_for false (Some c) (hide loc outer f)) wanted exs).

Lemma F2_length {A B} (P : A -> B -> Prop) l1 l2 : Forall2 P l1 l2 -> length l1 = length l2.
Proof. induction 1; simpl; auto. Qed.
Lemma F2_get {A B} (P : A -> B -> Prop) l1 l2 i a : Forall2 P l1 l2 -> nth_error l1 i = Some a -> exists b, nth_error l2 i = Some b /\ P a b.
Proof. intros H; revert i; induction H; intros [|i]; simpl; try discriminate; [intros [= <-]; eauto|apply IHForall2]. Qed.
Lemma F2_get' {A B} (P : A -> B -> Prop) l1 l2 i b : Forall2 P l1 l2 -> nth_error l2 i = Some b -> exists a, nth_error l1 i = Some a /\ P a b.
Proof. intros H; revert i; induction H; intros [|i]; simpl; try discriminate; [intros [= <-]; eauto|apply IHForall2]. Qed.
Lemma mapO_length' {A B} (f : A -> option B) l ys : mapO f l = Some ys -> length ys = length l.
Proof. revert ys. induction l as [|x l IH]; intros ys E; [injection E as <-; auto|]. apply mapO_cons_inv in E as (y & r & -> & _ & E). simpl. f_equal. auto. Qed.
Lemma mapO_get {A B} (f : A -> option B) l ys i x : mapO f l = Some ys -> nth_error l i = Some x -> nth_error ys i = f x /\ f x <> None.
Proof.
  revert ys i. induction l as [|y l IH]; intros ys [|i] E; simpl; try discriminate; apply mapO_cons_inv in E as (z & r & -> & E1 & E2).
  - intros [= <-]. simpl. rewrite E1. split; [auto|discriminate].
  - intros H. simpl. apply (IH r i E2 H).
Qed.
Lemma mapO_total {A B} (f : A -> option B) l : (forall x, In x l -> f x <> None) -> exists ys, mapO f l = Some ys.
Proof.
  induction l as [|x l IH]; intros H; [exists []; auto|]. destruct IH as (ys & E); [intros y Hy; apply H; right; auto|]. simpl. destruct (f x) as [z|] eqn:Ez; [|exfalso; apply (H x); [left; auto|auto]].
  rewrite E. eauto.
Qed.

Section Core.
Variables (inputs : nat -> coll) (traces : string -> coll) (depth : nat) (outer : string -> option coll) (ims : list coll).
Variables (root : bool) (stmts : list Stmt) (penv : list (string * Ref)) (sc : Scope) (s00 s1 s2 s3 : LS).
Hypothesis (R : run root stmts penv sc s00 s1 s2 s3) (ND : NoDup (flat_map stmt_name stmts)).
Hypothesis (Cs : forall n b, In (SScope n b) stmts -> closure_sane (scope_closure n b)).
Hypothesis (Cm : forall n b, In (SScope n b) stmts -> closure_means inputs traces b (scope_closure n b)).
Hypothesis (Cv : covers inputs traces ims (ls_imports s3)).
Local Notation vs := (vars_of stmts).
Local Notation nv := (length vs).
Local Notation pending := (pending_of (with_closures stmts)).
Local Notation s0 := (declare_vars vs 0 s00).
Definition imports_stand (strict : bool) : Prop :=
  forall i n p, nth_error (ls_imports s00) i = Some {| im_name := n; im_from := SParent p |} -> stands_for strict (nth_error ims i) (outer n).

Lemma resolvable vals vars r : vals_ok depth ims vars (ls_items s3) vals -> length vars = nv -> length ims = length (ls_imports s3) -> ref_in nv s3 (here s3) r ->
  exists c, resolve vals ims vars r = Some c.
Proof.
  intros [L V] Lv Li. destruct r as [i|i|i|i j]; simpl.
  - intros (_ & n & E). destruct (V _ _ E) as (c & -> & _). eauto.
  - intros H. destruct (nth_error ims i) eqn:E; eauto. apply nth_error_None in E. lia.
  - intros H. destruct (nth_error vars i) eqn:E; eauto. apply nth_error_None in E. lia.
  - intros (_ & c & E & Hj). destruct (V _ _ E) as (i' & e & o & -> & _ & M & F). apply scope_means_iff in M as (vars0 & vals0 & _ & _ & _ & _ & _ & outs & Eo & Fo).
    apply mapO_length' in Eo. apply F2_length in Fo, F. destruct (nth_error o j) eqn:Ej; eauto. apply nth_error_None in Ej. lia.
Qed.
Lemma binds_numbered k b : nth_error (sc_binds sc) k = Some b -> bi_var b = k.
Proof.
  destruct (run_sane _ _ _ _ _ _ _ _ R ND Cs) as (_ & _ & _ & _ & _ & _ & _ & _ & _ & _ & _ & F). intros E. destruct (F2_get' _ _ _ _ _ F E) as ([n e] & En & Ev). simpl in Ev.
  rewrite (var_id_spec vs 0 k n e) in Ev; auto; [injection Ev; auto|]. apply (nodup_both stmts ND).
Qed.
Lemma find_bind k b : nth_error (sc_binds sc) k = Some b -> find (fun b => bi_var b =? k) (sc_binds sc) = Some b.
Proof.
  intros E. destruct (find (fun b => bi_var b =? k) (sc_binds sc)) as [b'|] eqn:Ef.
  - apply find_some in Ef as (Hb & Ek). apply Nat.eqb_eq in Ek. apply In_nth_error in Hb as (k' & Ek'). pose proof (binds_numbered _ _ Ek'). congruence.
  - exfalso. apply nth_error_In in E as Hi. apply (find_none _ _ Ef) in Hi. apply binds_numbered in E. rewrite E, Nat.eqb_refl in Hi. discriminate.
Qed.

Lemma core_fwd exs : length ims = length (ls_imports s3) -> imports_stand true -> scope_means depth sc ims exs ->
  exists loc fields vars vals outs, local_to loc stmts /\ (forall st, In st stmts -> stmt_means inputs traces depth outer loc fields st) /\
    vals_ok depth ims vars (ls_items s3) vals /\ good ims vars (hide loc outer) fields true s3 vals /\
    mapO (fun e => resolve vals ims vars (ex_value e)) (sc_exports sc) = Some outs /\ Forall2 same_coll outs exs.
Proof.
  intros Li Is M. destruct (run_sane _ _ _ _ _ _ _ _ R ND Cs) as (M1 & S1 & S2 & S3 & X2 & N2 & X3 & N3 & Kn & Bn & _ & Fb).
  destruct (nodup_both stmts ND) as (NDp & NDv & _).
  apply scope_means_iff in M as (vars & vals & Lv & V & Bk & Bv & Hd & outs & Eo & Fo).
  rewrite (ru_items _ _ _ _ _ _ _ _ R) in V. rewrite (ru_vars _ _ _ _ _ _ _ _ R), map_length in Lv.
  set (names := flat_map stmt_name stmts) in *.
  set (loc := fun n => if mem n names then r <- lookup (ls_env s3) n; resolve vals ims vars r else None).
  set (fields := fun sc f => r <- qualified_ref sc f s3; resolve vals ims vars r).
  assert (Hl : forall n r c, In n names -> lookup (ls_env s3) n = Some r -> resolve vals ims vars r = Some c -> loc n = Some c).
  { intros n r c Hn Er Ec. unfold loc. apply mem_In in Hn. rewrite Hn, Er. auto. }
  assert (G : good ims vars (hide loc outer) fields true s3 vals).
  { split.
    - intros n r E. destruct (resolvable vals vars r V Lv Li (sa_env _ _ S3 _ _ E)) as (c & Ec). destruct (in_dec String.string_dec n names) as [Hn|Hn].
      + exists c. split; auto. unfold hide. rewrite (Hl n r c Hn E Ec). apply same_coll_refl.
      + unfold hide, loc. assert (Em : mem n names = false) by (apply not_true_is_false; rewrite mem_In; auto). rewrite Em. rewrite (Kn n Hn) in E.
        destruct (import_names_spec _ _ _ _ (ru_import _ _ _ _ _ _ _ _ R)) as (_ & _ & _ & _ & _ & _ & K). apply K in E as [E|(_ & i & p & -> & Ei)]; [discriminate|]. apply (Is i n p Ei).
    - intros c f r E. destruct (resolvable vals vars r V Lv Li (sa_fields _ _ S3 _ _ _ E)) as (x & Ex). exists x. split; auto. unfold fields. rewrite E, Ex. apply same_coll_refl. }
  destruct (ru_loop _ _ _ _ _ _ _ _ R) as (deps & El). destruct (sane0 _ _ _ _ _ _ _ _ R) as (S0 & _).
  assert (M13 : mono s1 s3). { apply names_mono; [eapply ext_trans; eauto|eapply names_trans; eauto]. }
  pose proof (loop_fwd inputs traces depth ims vars (hide loc outer) fields nv root stmts _ _ _ _ _ s3 vals El S0 (pending_fresh _ _ _ _ _ _ _ _ R ND Cs) NDp M13 Cv V G) as Lf.
  pose proof (binds_fwd inputs traces depth ims vars (hide loc outer) fields nv root vs vs s1 _ s2 s3 vals (ru_binds _ _ _ _ _ _ _ _ R) S1 M13 X3 Cv V G) as Bf.
  exists loc, fields, vars, vals, outs. split; [|split; [|split; [|split]]]; auto.
  - intros m Hm. unfold loc in Hm. destruct (mem m names) eqn:Em; [apply mem_In; auto|congruence].
  - intros st Hst. assert (Hin : forall n, In n (stmt_name st) -> In n names) by (intros n Hn; apply in_flat_map; eauto).
    destruct st as [n e|n e|n b|n e]; [| | |exact I].
    + destruct (Lf n (WLet e)) as (r & c & Er & Ec & Mc); [apply pending_In; left; eauto|]. exists c. split; auto. eapply Hl; eauto. apply Hin. left; auto.
    + apply vars_In in Hst. split. { apply Hd. rewrite (ru_vars _ _ _ _ _ _ _ _ R). destruct vs; [contradiction|discriminate]. }
      apply In_nth_error in Hst as (k & Ek). destruct (F2_get _ _ _ _ _ Bf Ek) as (b & Eb & src & Es & Ms). simpl in Ms.
      assert (exists c, nth_error vars k = Some c) as (c & Ec). { destruct (nth_error vars k) eqn:E; eauto. apply nth_error_None in E. assert (k < nv) by (apply nth_error_Some; congruence). lia. }
      specialize (Bv _ _ Ec). unfold bind_means in Bv. rewrite (find_bind _ _ Eb) in Bv. destruct Bv as (src' & l & Es' & At & Sl). rewrite Es in Es'. injection Es' as <-.
      exists c, src, l. split; auto. apply (Hl n (RVar k) c); auto; [apply Hin; left; auto|].
      apply (mo_env _ _ M13), (mo_env _ _ M1). apply (declare_spec vs 0 s00) with (e := e); auto.
    + destruct (Lf n (WScope (scope_closure n b))) as (pe & child & i & os & v & Ec & Hp & Ei & Ew & En & im' & ex' & Eim & Mch & Fch); [apply pending_In; right; eauto|].
      destruct (Cm n b Hst _ _ _ depth (resolve v ims vars) (hide loc outer) Ec) as (Cf & _). destruct (Cf Hp im' ex' Eim Mch) as (loc' & fields' & L' & St' & Fx).
      apply scope_stmt_iff. exists loc', fields'. split; auto. split; auto. intros f c Hf. unfold fields, qualified_ref in Hf. rewrite Ei, Ew in Hf.
      destruct (position f (qualified_fields stmts n)) as [j|] eqn:Ej; [|discriminate]. simpl in Hf. rewrite En in Hf. apply position_nth in Ej.
      destruct (F2_get _ _ _ _ _ Fx Ej) as (x & Ex & y & Ey & Hy). injection Ey as <-. destruct (F2_get' _ _ _ _ _ Fch Hf) as (x' & Ex' & l & Al & Sl). rewrite Ex in Ex'. injection Ex' as <-.
      destruct (hide loc' (hide loc outer) f) as [a|]; [|discriminate]. destruct (same_left depth x a l Al Hy) as (la & Ela & Sla). exists a, la. split; auto. split; auto. eapply same_coll_trans; eauto.
Qed.

Lemma core_bwd loc fields : imports_stand false -> local_to loc stmts -> (forall st, In st stmts -> stmt_means inputs traces depth outer loc fields st) ->
  exists vars v2, vals_ok depth ims vars (ls_items s2) v2 /\ good ims vars (hide loc outer) fields false s2 v2 /\
    length vars = length (sc_vars sc) /\ (sc_vars sc <> [] -> depth <> 0) /\
    (Forall (fun b => bi_var b < length (sc_vars sc)) (sc_binds sc) /\ NoDup (map bi_var (sc_binds sc))) /\
    forall more v c, nth_error vars v = Some c -> bind_means depth (resolve (v2 ++ more) ims vars) (sc_binds sc) v c.
Proof.
  intros Is Lc St. destruct (run_sane _ _ _ _ _ _ _ _ R ND Cs) as (M1 & S1 & S2 & S3 & X2 & N2 & X3 & N3 & Kn & Bn & _ & Fb).
  destruct (nodup_both stmts ND) as (NDp & NDv & _).
  set (names := flat_map stmt_name stmts) in *.
  assert (Vr : forall n e, In (n, e) vs -> depth <> 0 /\ exists c src next, loc n = Some c /\ expr_means inputs traces depth (hide loc outer) fields e src /\ at_times (feedback_time depth) src = Some next /\ same_coll c next).
  { intros n e H. apply vars_In in H. apply (St _ H). }
  assert (Src : exists srcs, Forall2 (fun ne src => expr_means inputs traces depth (hide loc outer) fields (snd ne) src /\ exists c next, loc (fst ne) = Some c /\ at_times (feedback_time depth) src = Some next /\ same_coll c next) vs srcs).
  { clear -Vr. induction vs as [|[n e] l IH]; [exists []; constructor|]. destruct IH as (srcs & F); [intros; apply (Vr n0); right; auto|].
    destruct (Vr n e) as (_ & c & src & next & A & B & C & D); [left; auto|]. exists (src :: srcs). constructor; auto. simpl. split; eauto. }
  destruct Src as (srcs & Fs).
  set (vars := map (fun ne : string * Expr => match loc (fst ne) with Some c => c | None => [] end) vs).
  assert (Cv2 : covers inputs traces ims (ls_imports s2)) by (eapply covers_ext; eauto).
  assert (Cv1 : covers inputs traces ims (ls_imports s1)) by (eapply covers_ext; eauto).
  destruct (sane0 _ _ _ _ _ _ _ _ R) as (S0 & I0 & C0 & F0).
  assert (G0 : good ims vars (hide loc outer) fields false s0 []).
  { split.
    - intros n r E. destruct (in_dec String.string_dec n (map fst vs)) as [Hn|Hn].
      + apply in_map_iff in Hn as ([n' e] & En & Hn). simpl in En. subst n'. apply In_nth_error in Hn as (k & Ek).
        assert (E' : lookup (ls_env s0) n = Some (RVar k)) by (apply (declare_spec vs 0 s00) with (e := e); auto). rewrite E in E'. injection E' as ->.
        destruct (Vr n e) as (_ & c & _ & _ & Hc & _); [eapply nth_error_In; eauto|]. exists c. unfold hide. rewrite Hc. split; [|apply same_coll_refl].
        simpl. unfold vars. erewrite map_nth_error by exact Ek. simpl. rewrite Hc. auto.
      + destruct (declare_spec vs 0 s00) as (_ & _ & _ & _ & _ & _ & _ & C & _). rewrite (C n Hn) in E.
        destruct (import_names_spec _ _ _ _ (ru_import _ _ _ _ _ _ _ _ R)) as (_ & _ & _ & _ & _ & _ & K). apply K in E as [E|(Hf & i & p & -> & Ei)]; [discriminate|].
        assert (Hnn : ~ In n names). { destruct root; [contradiction|]. apply body_free_apart; auto. }
        unfold hide. destruct (loc n) eqn:Eln; [exfalso; apply Hnn, Lc; congruence|]. apply (Is i n p Ei).
    - intros c f r. unfold qualified_ref. rewrite C0. discriminate. }
  destruct (ru_loop _ _ _ _ _ _ _ _ R) as (deps & El).
  destruct (loop_bwd inputs traces depth ims vars (hide loc outer) fields nv root stmts _ _ _ _ s1 [] El S0 (pending_fresh _ _ _ _ _ _ _ _ R ND Cs) NDp Cv1) as (v1 & V1 & G1); auto.
  { intros n w Hw. apply pending_In in Hw as [(e & Hst & ->)|(b & Hst & ->)].
    - destruct (St _ Hst) as (c & Hc & Mc). exists c. split; auto. unfold hide. rewrite Hc. auto.
    - pose proof (proj1 (scope_stmt_iff _ _ _ _ _ _ _ _) (St _ Hst)) as (loc' & fields' & L' & St' & Ff).
      intros pe child look' Ec Hp. destruct (Cm n b Hst _ _ _ depth look' (hide loc outer) Ec) as (_ & Cb). destruct (Cb Hp loc' fields' L' St') as (im' & ex' & Eim & Mch & Fx).
      assert (Ho : exists outs, Forall2 (fun e o => exists l, at_times (left_time (S depth)) e = Some l /\ same_coll o l) ex' outs).
      { clear. induction ex' as [|x l (o & F)]; [exists []; constructor|]. destruct (at_times_total (left_time (S depth)) x) as (y & Ey); [apply left_time_total|]. exists (y :: o). constructor; auto. exists y. split; auto. apply same_coll_refl. }
      destruct Ho as (outs & Fo). exists outs. split; [exists im', ex'; auto|]. intros f j Ej. apply position_nth in Ej. destruct (F2_get _ _ _ _ _ Fx Ej) as (x & Ex & y & Ey & Hy). injection Ey as <-.
      destruct (F2_get _ _ _ _ _ Fo Ex) as (o & Eo & l & Al & Sl). exists o. split; auto. destruct (fields n f) as [c|] eqn:Ef; auto.
      destruct (Ff f c Ef) as (a & la & Ea & Ela & Sc). rewrite Ea in Hy. destruct (same_left depth x a l Al Hy) as (la' & Ela' & Sla). rewrite Ela in Ela'. injection Ela' as <-.
      eapply same_coll_trans; [exact Sl|]. eapply same_coll_trans; [exact Sla|]. apply same_coll_sym; auto. }
  { rewrite I0. apply vals_ok_nil. auto. }
  simpl in V1, G1.
  destruct (binds_bwd inputs traces depth ims vars (hide loc outer) fields nv root vs vs s1 _ s2 v1 (ru_binds _ _ _ _ _ _ _ _ R) S1 Cv2 V1 G1 srcs) as (m2 & V2 & G2 & F2).
  { clear -Fs. induction Fs as [|? ? ? ? (H & _)]; constructor; auto. }
  exists vars, (v1 ++ m2). split; auto. split; auto. rewrite (ru_vars _ _ _ _ _ _ _ _ R). split; [unfold vars; rewrite !map_length; auto|].
  assert (Dp : map fst vs <> [] -> depth <> 0). { destruct vs as [|[n e] l]; [intros H; elim H; reflexivity|]. intros _. apply (Vr n e). left; auto. }
  split; auto. split; [split|].
  - apply Forall_forall. intros b Hb. apply In_nth_error in Hb as (k & Ek). rewrite (binds_numbered _ _ Ek), map_length, (F2_length _ _ _ Fb). apply nth_error_Some. congruence.
  - apply NoDup_nth_error. intros i j Hi E. rewrite map_length in Hi. destruct (nth_error (sc_binds sc) i) as [b|] eqn:Ei; [|apply nth_error_None in Ei; lia].
    rewrite (map_nth_error bi_var _ _ Ei), (binds_numbered _ _ Ei) in E. symmetry in E. destruct (nth_error (sc_binds sc) j) as [b'|] eqn:Ej.
    + rewrite (map_nth_error bi_var _ _ Ej), (binds_numbered _ _ Ej) in E. congruence.
    + exfalso. apply nth_error_None in Ej. assert (Hj : j < length (map bi_var (sc_binds sc))) by (apply nth_error_Some; rewrite E; discriminate). rewrite map_length in Hj. lia.
  - intros more k c Ec. unfold vars in Ec. assert (Hk : k < nv). { assert (Hk' : k < length (map (fun ne : string * Expr => match loc (fst ne) with Some c => c | None => [] end) vs)) by (apply nth_error_Some; congruence). rewrite map_length in Hk'. auto. }
    destruct (nth_error vs k) as [[n e]|] eqn:Ek; [|apply nth_error_None in Ek; lia]. rewrite (map_nth_error _ _ _ Ek) in Ec. simpl in Ec.
    destruct (F2_get _ _ _ _ _ Fs Ek) as (src & Es & Ms & c' & next & Hc & At & Sn). simpl in Hc. rewrite Hc in Ec. injection Ec as <-.
    destruct (F2_get _ _ _ _ _ F2 Es) as (b & Eb & x & Ex & Sx). unfold bind_means. rewrite (find_bind _ _ Eb).
    assert (Hd : depth <> 0). { apply (Vr n e). eapply nth_error_In; eauto. } destruct depth as [|d]; [congruence|].
    destruct (same_next d src x next At Sx) as (l & El' & Sl). exists x, l. split; [apply resolve_ext; auto|]. split; auto. eapply same_coll_trans; eauto.
Qed.
End Core.

Lemma all_closures_mean inputs traces st : match st with SScope n b => names_apart st -> closure_means inputs traces b (scope_closure n b) | _ => True end.
Proof.
  induction st as [n e|n e|n b IH|n e] using stmt_ind'; try exact I. intros A. apply names_apart_iff in A as (ND & A).
  assert (Cs : forall m c, In (SScope m c) b -> closure_sane (scope_closure m c)).
  { intros m c H. apply (all_closures_sane (SScope m c)). apply A; auto. }
  assert (Cm : forall m c, In (SScope m c) b -> closure_means inputs traces c (scope_closure m c)).
  { intros m c H. rewrite Forall_forall in IH. apply (IH _ H). apply A; auto. }
  intros penv wanted child depth look outer E. unfold scope_closure in E. apply run_scope in E as (s00 & s1 & s2 & s3 & R & F). apply field_exports_spec in F.
  pose proof (run_only_imports _ _ _ _ _ _ _ R) as Oi. destruct (import_names_spec _ _ _ _ (ru_import _ _ _ _ _ _ _ _ R)) as (_ & _ & _ & _ & _ & (more & Em & _ & Fm) & _). simpl in Em.
  assert (Par : forall im, In im (ls_imports s00) -> exists p, im_from im = SParent p /\ lookup penv (im_name im) = Some p).
  { intros im H. rewrite Em in H. rewrite Forall_forall in Fm. auto. }
  assert (Cv : forall ims, covers inputs traces ims (ls_imports s3)).
  { intros ims i im E. rewrite Oi in E. apply nth_error_In in E. destruct (Par im E) as (p & -> & _). exact I. }
  assert (Stand : forall st ims, (forall n r, lookup penv n = Some r -> stands_for st (look r) (outer n)) -> imported look (sc_imports child) = Some ims -> imports_stand outer ims s00 st).
  { intros st ims Hp Ei i m p Em'. rewrite (ru_imports _ _ _ _ _ _ _ _ R), Oi in Ei. unfold imported in Ei. destruct (mapO_get _ _ _ _ _ Ei Em') as (En & _). simpl in En.
    apply nth_error_In in Em' as Hi. destruct (Par _ Hi) as (p' & Ep & Hl). simpl in Ep, Hl. injection Ep as <-. destruct (Hp _ _ Hl) as (c & Ec & Hc). exists c. split; [congruence|auto]. }
  split.
  - intros Hp ims exs Ei M.
    assert (Li : length ims = length (ls_imports s3)) by (apply mapO_length' in Ei; rewrite (ru_imports _ _ _ _ _ _ _ _ R) in Ei; auto).
    destruct (core_fwd inputs traces (S depth) outer ims false b penv child s00 s1 s2 s3 R ND Cs Cm (Cv ims) exs Li (Stand _ _ Hp Ei) M) as (loc & fields & vars & vals & outs & Lc & St & V & G & Eo & Fo).
    exists loc, fields. split; auto. split; auto. clear -F G Eo Fo. revert outs exs Eo Fo. induction F as [|f e ws es (_ & He) _ IH]; intros outs exs Eo Fo.
    + injection Eo as <-. inversion Fo. constructor.
    + apply mapO_cons_inv in Eo as (y & r & -> & Ey & Er). inversion Fo as [|? x ? xs Hx Hxs]; subst. constructor; [|eapply IH; eauto].
      destruct (go_env _ _ _ _ _ _ _ G _ _ He) as (c & Ec & Hc). rewrite Ec in Ey. injection Ey as <-. exists x. split; auto. destruct (hide loc outer f); auto. eapply same_coll_trans; [apply same_coll_sym; exact Hx|auto].
  - intros Hp loc fields Lc St.
    assert (exists ims, imported look (sc_imports child) = Some ims) as (ims & Ei).
    { unfold imported. apply mapO_total. rewrite (ru_imports _ _ _ _ _ _ _ _ R), Oi. intros im Hi. destruct (Par im Hi) as (p & -> & Hl). destruct (Hp _ _ Hl) as (c & -> & _). discriminate. }
    destruct (core_bwd inputs traces (S depth) outer ims false b penv child s00 s1 s2 s3 R ND Cs Cm (Cv ims) loc fields (Stand _ _ Hp Ei) Lc St) as (vars & v2 & V & G & Lv & Dp & Bk & Bm).
    assert (Es : s3 = s2) by apply (ru_exports _ _ _ _ _ _ _ _ R). subst s3.
    assert (Out : exists outs, mapO (fun e => resolve v2 ims vars (ex_value e)) (sc_exports child) = Some outs /\ Forall2 (fun f c => stands_for false (Some c) (hide loc outer f)) wanted outs).
    { clear -F G. induction F as [|f e ws es (_ & He) _ (outs & Eo & Fo)]; [exists []; split; auto; constructor|]. destruct (go_env _ _ _ _ _ _ _ G _ _ He) as (c & Ec & Hc). exists (c :: outs).
      cbn [mapO]. rewrite Ec, Eo. split; auto. constructor; auto. exists c. auto. }
    destruct Out as (outs & Eo & Fo). exists ims, outs. split; auto. split; auto. apply scope_means_iff. exists vars, v2. rewrite (ru_items _ _ _ _ _ _ _ _ R). split; auto. split; [exact V|]. split; auto.
    split; [intros v c Ec; specialize (Bm [] v c Ec); rewrite app_nil_r in Bm; auto|]. split; auto. exists outs. split; auto. clear. induction outs; constructor; auto. apply same_coll_refl.
Qed.

Theorem lower_tree_refs stmts p : lower_tree stmts = Some p -> program_apart stmts -> everywhere refs_ok p.
Proof.
  intros E (ND & A). assert (Cs : forall m c, In (SScope m c) stmts -> closure_sane (scope_closure m c)).
  { intros m c H. apply (all_closures_sane (SScope m c)). apply A; auto. }
  apply run_scope in E as (s00 & s1 & s2 & s3 & R & _). eapply run_refs; eauto. apply (run_sane _ _ _ _ _ _ _ _ R ND Cs); auto.
Qed.
Theorem lower_tree_names stmts p : lower_tree stmts = Some p -> map ex_name (sc_exports p) = map fst (exports_of stmts).
Proof.
  intros E. apply run_scope in E as (s00 & s1 & s2 & s3 & R & _). pose proof (ru_exports _ _ _ _ _ _ _ _ R) as E. simpl in E. clear R.
  revert E. generalize (sc_exports p). revert s2. induction (exports_of stmts) as [|[n e] es IH]; intros s xs; simpl; [intros [= <- _]; auto|].
  destruct (lower_expr true e s) as [[r s']|]; [|discriminate]. destruct (lower_exports true es s') as [[ys s'']|] eqn:E; [|discriminate]. intros [= <- <-]. simpl. f_equal. eapply IH; eauto.
Qed.
Theorem lower_tree_means stmts p inputs traces exports : lower_tree stmts = Some p -> program_apart stmts ->
  program_means p (fun n => Some (inputs n)) (fun t => Some (traces t)) exports <-> source_means inputs traces stmts exports.
Proof.
  intros E (ND & A). assert (Cs : forall m c, In (SScope m c) stmts -> closure_sane (scope_closure m c)).
  { intros m c H. apply (all_closures_sane (SScope m c)). apply A; auto. }
  assert (Cm : forall m c, In (SScope m c) stmts -> closure_means inputs traces c (scope_closure m c)).
  { intros m c H. apply (all_closures_mean inputs traces (SScope m c)). apply A; auto. }
  apply run_scope in E as (s00 & s1 & s2 & s3 & R & _). pose proof (ru_import _ _ _ _ _ _ _ _ R) as E0. simpl in E0. injection E0 as E0.
  destruct (run_sane _ _ _ _ _ _ _ _ R ND Cs) as (_ & _ & S2 & S3 & _ & _ & X3 & N3 & _). pose proof (ru_exports _ _ _ _ _ _ _ _ R) as Ex. simpl in Ex.
  assert (Stand : forall st ims, imports_stand (fun _ => None) ims s00 st). { intros st ims i n q Ei. rewrite <- E0 in Ei. destruct i; discriminate. }
  assert (Cov : forall ims, root_imports p (fun n => Some (inputs n)) (fun t => Some (traces t)) = Some ims -> covers inputs traces ims (ls_imports s3) /\ length ims = length (ls_imports s3)).
  { intros ims Ei. unfold root_imports in Ei. rewrite (ru_imports _ _ _ _ _ _ _ _ R) in Ei. split; [|apply mapO_length' in Ei; auto].
    intros i im Hi. destruct (mapO_get _ _ _ _ _ Ei Hi) as (En & Hn). destruct (im_from im); auto. }
  assert (Hid : forall loc : string -> option coll, forall e c fields, expr_means inputs traces 0 (hide loc (fun _ => None)) fields e c <-> expr_means inputs traces 0 loc fields e c).
  { intros loc e. assert (Q : forall n, hide loc (fun _ => None) n = loc n) by (intros n; unfold hide; destruct (loc n); auto).
    induction e as [n|n|n|sc f|e q IHe|l r q IHl IHr|e red IHe|e t IHe|e IHe|e t IHe|e IHe|e t IHe|e lab IHe|es IHes|e IHe] using expr_ind'; intros c fields;
      try (cbn [expr_means]; split; intros (a & Ha & H); exists a; (split; [apply IHe; auto|exact H]); fail); try reflexivity.
    - cbn [expr_means]. rewrite Q. reflexivity.
    - cbn [expr_means]. split; intros (a & b & Ha & Hb & H); exists a, b; (split; [apply IHl; auto|split; [apply IHr; auto|exact H]]).
    - rewrite !means_concat. assert (G : forall cs, Forall2 (expr_means inputs traces 0 (hide loc (fun _ => None)) fields) es cs <-> Forall2 (expr_means inputs traces 0 loc fields) es cs).
      { clear -IHes. induction IHes as [|e es He _ IH]; intros cs; split; intros H; inversion H; subst; constructor; try (apply He; auto; fail); apply IH; auto. }
      split; intros (cs & H & H'); exists cs; (split; [apply G; auto|auto]). }
  split.
  - intros (ims & Ei & M). destruct (Cov ims Ei) as (Cv & Li).
    destruct (core_fwd inputs traces 0 (fun _ => None) ims true stmts [] p s00 s1 s2 s3 R ND Cs Cm Cv exports Li (Stand _ _) M) as (loc & fields & vars & vals & outs & Lc & St & V & G & Eo & Fo).
    exists loc, fields. split; auto. split; auto.
    pose proof (exports_fwd inputs traces 0 ims vars _ _ _ _ _ _ _ _ s3 vals Ex S2 (names_mono _ _ X3 N3) (ext_refl _) Cv V G) as Fx. clear -Fx Eo Fo Hid. revert outs exports Eo Fo.
    induction Fx as [|ne x es xs (c & Ec & Mc) _ IH]; intros outs exports Eo Fo; [injection Eo as <-; inversion Fo; constructor|].
    apply mapO_cons_inv in Eo as (y & r & -> & Ey & Er). inversion Fo as [|? z ? zs Hz Hzs]; subst. constructor; [|eapply IH; eauto]. apply Hid. rewrite Ec in Ey. injection Ey as <-. eapply expr_closed; eauto.
  - intros (loc & fields & Lc & St & Fx).
    assert (exists ims, root_imports p (fun n => Some (inputs n)) (fun t => Some (traces t)) = Some ims) as (ims & Ei).
    { unfold root_imports. apply mapO_total. rewrite (ru_imports _ _ _ _ _ _ _ _ R). intros im Hi. destruct (run_grows _ _ _ _ _ _ _ _ R) as (more & Em & Fm). rewrite <- E0 in Em. simpl in Em. rewrite Em in Hi.
      rewrite Forall_forall in Fm. destruct (Fm im Hi) as (_ & H). destruct (im_from im); try discriminate. contradiction. }
    destruct (Cov ims Ei) as (Cv & Li).
    destruct (core_bwd inputs traces 0 (fun _ => None) ims true stmts [] p s00 s1 s2 s3 R ND Cs Cm Cv loc fields (Stand _ _) Lc St) as (vars & v2 & V & G & Lv & Dp & Bk & Bm).
    destruct (exports_bwd inputs traces 0 ims vars _ _ _ _ _ _ _ _ v2 Ex S2 Cv V G exports) as (more & V3 & F3).
    { clear -Fx Hid. induction Fx; constructor; auto. apply Hid. auto. }
    exists ims. split; auto. apply scope_means_iff. exists vars, (v2 ++ more). rewrite (ru_items _ _ _ _ _ _ _ _ R). split; auto. split; [exact V3|]. split; auto. split; [intros v c Ec; apply Bm; auto|]. split; auto.
    clear -F3. induction F3 as [|src b srcs bs (c & Ec & Sc) _ (outs & Eo & Fo)]; [exists []; split; auto; constructor|]. exists (c :: outs). cbn [mapO]. rewrite Ec, Eo. split; auto. constructor; auto. apply same_coll_sym; auto.
Qed.
