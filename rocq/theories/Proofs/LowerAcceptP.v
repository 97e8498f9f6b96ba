(** Lowering accepts the programs that make sense. *)
From Verif Require Import Model.RenderM Model.LowerM Spec.DdirSpec Spec.SourceSpec Proofs.DdirP Proofs.DdirMeansP Proofs.OptimizeP Proofs.LowerP Proofs.LowerScopeP Proofs.LowerTreeP.
Local Open Scope nat_scope.

(** ** Names used *)
Lemma set_add_In x y l : In y (set_add x l) <-> y = x \/ In y l.
Proof.
  induction l as [|z l IH]; simpl; [intuition|]. destruct (String.compare x z) eqn:E; simpl.
  - apply String.compare_eq_iff in E. subst. intuition.
  - intuition.
  - rewrite IH. intuition.
Qed.
Lemma set_union_In xs : forall y l, In y (set_union xs l) <-> In y xs \/ In y l.
Proof.
  unfold set_union. induction xs as [|x xs IH]; intros y l; simpl; [intuition|]. rewrite IH, set_add_In. intuition.
Qed.
Lemma expr_names_In e n : In n (expr_names e) <-> mentions e n.
Proof.
  unfold mentions. induction e as [k|k|k|sc f|e p IHe|l r p IHl IHr|e red IHe|e t IHe|e IHe|e t IHe|e IHe|e t IHe|e lab IHe|es IHes|e IHe] using expr_ind'; simpl; auto.
  - split; [intros []|]. intros [[H|[]]|(f & [H|[]])]; discriminate.
  - split; [intros []|]. intros [[H|[]]|(f & [H|[]])]; discriminate.
  - split; [intros [->|[]]; auto|]. intros [[H|[]]|(f & [H|[]])]; [injection H; auto|discriminate].
  - split; [intros [->|[]]; right; exists f; auto|]. intros [[H|[]]|(f' & [H|[]])]; [discriminate|injection H; auto].
  - rewrite in_app_iff, IHl, IHr. split.
    + intros [[H|(f & H)]|[H|(f & H)]]; [left|right; exists f|left|right; exists f]; apply in_or_app; auto.
    + intros [H|(f & H)]; apply in_app_or in H as [H|H]; eauto.
  - rewrite in_flat_map. rewrite Forall_forall in IHes. split.
    + intros (e & He & H). apply (IHes e He) in H as [H|(f & H)]; [left|right; exists f]; apply in_flat_map; eauto.
    + intros [H|(f & H)]; apply in_flat_map in H as (e & He & H); exists e; (split; [auto|]); apply (IHes e He); eauto.
Qed.
Lemma not_mem x l : negb (mem x l) = true <-> ~ In x l.
Proof. rewrite <- mem_In. destruct (mem x l); simpl; split; congruence. Qed.
Lemma uses_needs st : forall m, In m (stmt_uses st) <-> needs st m.
Proof.
  induction st as [n e|n e|n b IH|n e] using stmt_ind'; intros m; simpl.
  - rewrite expr_names_In. split; [constructor; auto|inversion 1; auto].
  - rewrite expr_names_In. split; [constructor; auto|inversion 1; auto].
  - rewrite filter_In, set_union_In, not_mem, in_flat_map. rewrite Forall_forall in IH. split.
    + intros ([(st & Hst & H)|[]] & Hn). apply (NeedsScope n b st); auto. apply IH; auto.
    + intros H. inversion H as [| | |? ? st ? Hst Hs Hn]; subst. split; auto. left. exists st. split; auto. apply IH; auto.
  - rewrite expr_names_In. split; [constructor; auto|inversion 1; auto].
Qed.
Lemma body_free_In b m : In m (body_free b) <-> (exists st, In st b /\ needs st m) /\ ~ In m (flat_map stmt_name b).
Proof.
  unfold body_free. rewrite filter_In, set_union_In, not_mem, in_flat_map. split.
  - intros ([(st & Hst & H)|[]] & Hn). split; auto. exists st. split; auto. apply uses_needs; auto.
  - intros ((st & Hst & H) & Hn). split; auto. left. exists st. split; auto. apply uses_needs; auto.
Qed.
Lemma collect_In e sc : forall out f, In f (collect_qualified e sc out) <-> In f out \/ In (EQualified sc f) (expr_leaves e).
Proof.
  induction e as [k|k|k|s g|e p IHe|l r p IHl IHr|e red IHe|e t IHe|e IHe|e t IHe|e IHe|e t IHe|e lab IHe|es IHes|e IHe] using expr_ind'; intros out f; simpl; auto;
    try (split; [auto|intros [H|[H|[]]]; [auto|discriminate]]; fail).
  - destruct (String.eqb_spec s sc); simpl.
    + subst. destruct (mem g out) eqn:Em; simpl.
      * split; auto. intros [H|[[= ->]|[]]]; auto. apply mem_In; auto.
      * rewrite in_app_iff. simpl. split; [intros [H|[->|[]]]; auto|]. intros [H|[[= ->]|[]]]; auto.
    + split; auto. intros [H|[[= -> ->]|[]]]; [auto|congruence].
  - rewrite IHr, IHl, in_app_iff. tauto.
  - revert out. induction IHes as [|e es He _ IH]; intros out; simpl; [tauto|]. rewrite IH, He, in_app_iff. tauto.
Qed.
Definition stmt_expr (st : Stmt) : option Expr := match st with SLet _ e | SVar _ e | SExport _ e => Some e | SScope _ _ => None end.
Lemma qualified_In body sc f : In f (qualified_fields body sc) <-> exists st e, In st body /\ stmt_expr st = Some e /\ In (EQualified sc f) (expr_leaves e).
Proof.
  unfold qualified_fields. match goal with |- context [fold_left ?g body []] => assert (G : forall out, In f (fold_left g body out) <-> In f out \/ exists st e, In st body /\ stmt_expr st = Some e /\ In (EQualified sc f) (expr_leaves e)) end.
  { induction body as [|st body IH]; intros out; simpl; [split; [auto|intros [H|(st & e & [] & _)]; auto]|]. rewrite IH. clear IH. destruct st as [n e|n e|n b|n e]; rewrite ?collect_In; split;
      try (intros [[H|H]|(st & e' & H1 & H2)]; [auto|right; eexists _, e; split; [left; reflexivity|simpl; auto]|right; exists st, e'; auto]);
      try (intros [H|(st & e' & [<-|H1] & H2 & H3)]; [auto|injection H2 as <-; auto|right; exists st, e'; auto]).
    - intros [H|(st & e' & H1 & H2)]; [auto|right; exists st, e'; auto].
    - intros [H|(st & e' & [<-|H1] & H2 & H3)]; [auto|discriminate|right; exists st, e'; auto]. }
  rewrite G. split; [intros [[]|H]; auto|auto].
Qed.

(** ** No step panics *)
Definition seen (root : bool) (s : LS) (e : Expr) : Prop :=
  forall x, In x (expr_leaves e) ->
    match x with EInput _ | EImport _ => root = true | EName n => lookup (ls_env s) n <> None | EQualified sc f => qualified_ref sc f s <> None | _ => True end.
Lemma seen_names root s s' e : same_names s s' -> seen root s e -> seen root s' e.
Proof.
  intros N H x Hx. specialize (H x Hx). destruct x; auto; [rewrite (sn_env _ _ N); auto|rewrite (names_qualified _ _ _ _ N); auto].
Qed.
Lemma input_names root k s r s' : input_ref root k s = Some (r, s') -> same_names s s'.
Proof. unfold input_ref. destruct root; [|discriminate]. destruct (find _ _) as [[m i]|]; intros [= _ <-]; split; auto. Qed.
Lemma trace_names root k s r s' : trace_ref root k s = Some (r, s') -> same_names s s'.
Proof. unfold trace_ref. destruct root; [|discriminate]. destruct (lookup _ _) as [i|]; intros [= _ <-]; split; auto. Qed.
Lemma push_names it s : same_names s (ls_push s it). Proof. split; auto. Qed.
Lemma lower_expr_names root e : forall s r s', lower_expr root e s = Some (r, s') -> same_names s s'.
Proof.
  assert (One : forall e0 (mk : Ref -> Node) s r s', (forall s r s', lower_expr root e0 s = Some (r, s') -> same_names s s') -> (' (r, s) <- lower_expr root e0 s; Some (push_op (mk r) s)) = Some (r, s') -> same_names s s').
  { intros e0 mk s r s' H. destruct (lower_expr root e0 s) as [[r1 s1]|] eqn:E; [|discriminate]. intros [= _ <-]. eapply names_trans; [eapply H; eauto|apply push_names]. }
  induction e as [k|k|k|sc f|e p IHe|l q p IHl IHr|e red IHe|e t IHe|e IHe|e t IHe|e IHe|e t IHe|e lab IHe|es IHes|e IHe] using expr_ind'; intros s r s';
    try (simpl; apply One; exact IHe).
  - apply input_names.
  - apply trace_names.
  - simpl. destruct (lookup (ls_env s) k); [|discriminate]. intros [= _ <-]. apply names_refl.
  - simpl. destruct (qualified_ref sc f s); [|discriminate]. intros [= _ <-]. apply names_refl.
  - simpl. destruct (lower_expr root l s) as [[lr s1]|] eqn:E1; [|discriminate]. destruct (lower_expr root q _) as [[rr s2]|] eqn:E2; [|discriminate]. intros [= _ <-].
    eapply names_trans; [eapply IHl; eauto|]. eapply names_trans; [apply push_names|]. eapply names_trans; [eapply IHr; eauto|]. eapply names_trans; apply push_names.
  - simpl. destruct (lower_expr root e s) as [[lr s1]|] eqn:E1; [|discriminate]. intros [= _ <-]. eapply names_trans; [eapply IHe; eauto|]. eapply names_trans; apply push_names.
  - rewrite lower_concat_eq. assert (G : forall s rs s', lower_each root es s = Some (rs, s') -> same_names s s').
    { induction IHes as [|e es He _ IH]; intros s0 rs s0'; cbn [lower_each]; [intros [= _ <-]; apply names_refl|]. destruct (lower_expr root e s0) as [[r1 s1]|] eqn:E1; [|discriminate].
      destruct (lower_each root es s1) as [[rs1 s2]|] eqn:E2; [|discriminate]. intros [= _ <-]. eapply names_trans; eauto. }
    destruct (lower_each root es s) as [[rs s1]|] eqn:E; [|discriminate]. intros [= _ <-]. eapply names_trans; [eapply G; eauto|apply push_names].
Qed.
Lemma lower_expr_total root e : forall s, seen root s e -> exists r s', lower_expr root e s = Some (r, s').
Proof.
  assert (One : forall e0 (mk : Ref -> Node) s, (exists r s', lower_expr root e0 s = Some (r, s')) -> exists r s', (' (r, s) <- lower_expr root e0 s; Some (push_op (mk r) s)) = Some (r, s')).
  { intros e0 mk s (r & s' & ->). eexists _, _. reflexivity. }
  induction e as [k|k|k|sc f|e p IHe|l r p IHl IHr|e red IHe|e t IHe|e IHe|e t IHe|e IHe|e t IHe|e lab IHe|es IHes|e IHe] using expr_ind'; intros s H;
    try (simpl; apply One; apply IHe; exact H).
  - specialize (H _ (or_introl eq_refl)). simpl in H. subst root. simpl. unfold input_ref. destruct (find _ _) as [[m i]|]; eauto.
  - specialize (H _ (or_introl eq_refl)). simpl in H. subst root. simpl. unfold trace_ref. destruct (lookup _ _) as [i|]; eauto.
  - specialize (H _ (or_introl eq_refl)). simpl in *. destruct (lookup (ls_env s) k); [eauto|congruence].
  - specialize (H _ (or_introl eq_refl)). simpl in *. destruct (qualified_ref sc f s); [eauto|congruence].
  - simpl. destruct (IHl s) as (lr & s1 & E1); [intros x Hx; apply H; simpl; apply in_or_app; auto|]. rewrite E1. cbn [push_op].
    destruct (IHr (ls_push s1 (IOp (NArrange lr)))) as (rr & s3 & E3).
    { apply (seen_names root s); [eapply names_trans; [eapply lower_expr_names; eauto|apply push_names]|]. intros x Hx. apply H. simpl. apply in_or_app. auto. }
    rewrite E3. eexists _, _. reflexivity.
  - simpl. destruct (IHe s H) as (lr & s1 & ->). eexists _, _. reflexivity.
  - rewrite lower_concat_eq. assert (G : exists rs s', lower_each root es s = Some (rs, s')).
    { assert (H' : forall x, In x es -> seen root s x) by (intros e He x Hx; apply H; simpl; apply in_flat_map; eauto). clear H. revert s H'.
      induction IHes as [|e es He _ IH]; intros s H; cbn [lower_each]; [eauto|]. destruct (He s) as (r & s1 & E1); [apply H; left; auto|]. rewrite E1.
      destruct (IH s1) as (rs & s2 & ->); [|eauto]. intros x Hx. apply (seen_names root s); [eapply lower_expr_names; eauto|]. apply H. right; auto. }
    destruct G as (rs & s' & ->). eexists _, _. reflexivity.
Qed.
Lemma import_names_total names penv : forall s, (forall n, In n names -> lookup penv n <> None) -> exists s', import_names names penv s = Some s' /\ forall n, In n names \/ lookup (ls_env s) n <> None -> lookup (ls_env s') n <> None.
Proof.
  induction names as [|x names IH]; intros s H; simpl; [exists s; split; auto; intros n [[]|Hn]; auto|].
  destruct (lookup penv x) as [from|] eqn:E; [|exfalso; apply (H x); [left; auto|exact E]]. match goal with |- context [import_names names penv ?s1] => destruct (IH s1) as (s' & Es & K); [intros n Hn; apply H; right; exact Hn|] end. exists s'. split; auto.
  intros n Hn. apply K. simpl. destruct (String.eqb_spec x n); [right; discriminate|]. destruct Hn as [[Hn|Hn]|Hn]; [congruence|auto|auto].
Qed.
Lemma take_ready_total {W} deps (pending : list (string * W)) : (forall n w, In (n, w) pending -> lookup deps n <> None) -> (exists n w, In (n, w) pending /\ lookup deps n = Some []) ->
  exists n w rest, take_ready deps pending = Some (n, w, rest) /\ lookup deps n = Some [].
Proof.
  induction pending as [|[m x] pending IH]; intros H (n & w & Hi & E); [contradiction|]. simpl. destruct (lookup deps m) as [[|d ds]|] eqn:Em; [eauto| |exfalso; apply (H m x); [left; auto|auto]].
  destruct IH as (n' & w' & rest & -> & E'); [intros; apply (H n0 w0); right; auto|destruct Hi as [[= -> ->]|Hi]; [congruence|eauto]|]. eauto.
Qed.
Lemma lookup_done name deps n : lookup (done_with name deps) n = if String.eqb n name then None else option_map (filter (fun d => negb (String.eqb d name))) (lookup deps n).
Proof.
  unfold done_with. induction deps as [|[k d] deps IH]; simpl; [destruct (String.eqb n name); auto|]. destruct (String.eqb_spec k name); simpl.
  - rewrite IH. destruct (String.eqb_spec n name); auto. destruct (String.eqb_spec k n); [congruence|auto].
  - destruct (String.eqb_spec k n); [|auto]. subst. destruct (String.eqb_spec n name); [congruence|auto].
Qed.
Lemma lookup_table body defined n : NoDup (flat_map stmt_name body) ->
  (forall e, In (SLet n e) body -> lookup (deps_table body defined) n = Some (deps_of (expr_names e) defined n)) /\
  (forall b, In (SScope n b) body -> lookup (deps_table body defined) n = Some (deps_of (body_free b) defined n)).
Proof.
  intros ND. assert (Tail : forall st body, In n (stmt_name st) -> NoDup (flat_map stmt_name (st :: body)) -> ~ In n (flat_map stmt_name body)).
  { clear. intros st body H N. destruct st; simpl in *; try contradiction; destruct H as [<-|[]]; apply NoDup_cons_iff in N; tauto. }
  induction body as [|st body IH]; [split; intros ? []|].
  assert (ND' : NoDup (flat_map stmt_name body)) by (simpl in ND; destruct st; simpl in ND; try (apply NoDup_cons_iff in ND; tauto); auto). destruct (IH ND') as (I1 & I2).
  assert (Not : In n (stmt_name st) -> (forall e, ~ In (SLet n e) body) /\ (forall b, ~ In (SScope n b) body)).
  { intros H. pose proof (Tail _ _ H ND) as T. split; intros y Hy; apply T, in_flat_map; eexists; (split; [exact Hy|left; auto]). }
  split; intros y [->|H].
  - simpl. rewrite String.eqb_refl. auto.
  - destruct st as [m e|m e|m b|m e]; simpl; auto; (destruct (String.eqb_spec m n); [subst; exfalso; eapply (proj1 (Not (or_introl eq_refl))); eauto|auto]).
  - simpl. rewrite String.eqb_refl. auto.
  - destruct st as [m e|m e|m b|m e]; simpl; auto; (destruct (String.eqb_spec m n); [subst; exfalso; eapply (proj2 (Not (or_introl eq_refl))); eauto|auto]).
Qed.
Lemma defined_In body n : In n (defined_of body) <-> is_ordered body n.
Proof.
  unfold is_ordered. induction body as [|st body IH]; simpl; [split; [intros []|intros [(e & [])|(b & [])]]|]. destruct st as [m e|m e|m b|m e]; simpl; rewrite IH; split.
  - intros [->|[(x & H)|(x & H)]]; eauto. - intros [(x & [[= -> _]|H])|(x & [H|H])]; eauto; discriminate.
  - intros [(x & H)|(x & H)]; eauto. - intros [(x & [H|H])|(x & [H|H])]; eauto; discriminate.
  - intros [->|[(x & H)|(x & H)]]; eauto. - intros [(x & [H|H])|(x & [[= -> _]|H])]; eauto; discriminate.
  - intros [(x & H)|(x & H)]; eauto. - intros [(x & [H|H])|(x & [H|H])]; eauto; discriminate.
Qed.
Lemma deps_of_In free defined self m : In m (deps_of free defined self) <-> In m free /\ m <> self /\ In m defined.
Proof.
  unfold deps_of. rewrite filter_In, set_union_In, andb_true_iff, mem_In. split; [intros ([H|[]] & A & B)|intros (H & A & B)]; (split; [auto|split; auto]).
  - intros ->. rewrite String.eqb_refl in A. discriminate.
  - apply negb_true_iff, String.eqb_neq; auto.
Qed.
Lemma position_In f fs : In f fs -> position f fs <> None.
Proof. intros H E. apply position_none in E. auto. Qed.

(** ** Every let and every scope gets its turn *)
Lemma least (rank : string -> nat) (l : list string) : l <> [] -> exists x, In x l /\ forall y, In y l -> rank x <= rank y.
Proof.
  induction l as [|a l IH]; [congruence|]. intros _. destruct l as [|b l]; [exists a; split; [left; auto|intros y [<-|[]]; auto]|].
  destruct IH as (x & Hx & M); [discriminate|]. destruct (le_lt_dec (rank a) (rank x)).
  - exists a. split; [left; auto|]. intros y [<-|Hy]; auto. specialize (M y Hy). lia.
  - exists x. split; [right; auto|]. intros y [<-|Hy]; [lia|auto].
Qed.
Section Turn.
Variables (root : bool) (body : list Stmt) (rank : string -> nat).
Hypothesis (ND : NoDup (flat_map stmt_name body)).
Hypothesis (Lets : forall n e, In (SLet n e) body -> expr_ok root body e /\ forall m, mentions e m -> is_ordered body m -> rank m < rank n).
Hypothesis (Subs : forall n b, In (SScope n b) body -> forall m, needs (SScope n b) m -> visible root body m /\ (is_ordered body m -> rank m < rank n)).
Hypothesis (Exprs : forall st e, In st body -> stmt_expr st = Some e -> expr_ok root body e).
Hypothesis (Closures : forall n b, In (SScope n b) body -> forall penv wanted, (forall m, In m (body_free b) -> lookup penv m <> None) -> (forall f, In f wanted -> is_field b f) ->
  exists child, scope_closure n b penv wanted = Some child).

Record have (P : list string) (s : LS) : Prop := {
  ha_vars : forall m e, In (SVar m e) body -> lookup (ls_env s) m <> None;
  ha_outer : root = false -> forall m, In m (body_free body) -> lookup (ls_env s) m <> None;
  ha_lets : forall m e, In (SLet m e) body -> ~ In m P -> lookup (ls_env s) m <> None;
  ha_subs : forall m b, In (SScope m b) body -> ~ In m P -> lookup (ls_children s) m <> None /\ lookup (ls_fields s) m = Some (qualified_fields body m) }.
Lemma have_names P s s' : same_names s s' -> have P s -> have P s'.
Proof. intros [E1 E2 E3] [H1 H2 H3 H4]. split; rewrite ?E1, ?E2, ?E3; auto. Qed.
Lemma have_visible P s m : have P s -> visible root body m -> (exists st, In st body /\ needs st m) -> (is_ordered body m -> ~ In m P) -> lookup (ls_env s) m <> None.
Proof.
  intros H [(e & [Hl|Hv])|(Hr & Hn)] U O.
  - apply (ha_lets _ _ H m e Hl). apply O. left; eauto.
  - apply (ha_vars _ _ H m e Hv).
  - apply (ha_outer _ _ H Hr). apply body_free_In. auto.
Qed.
Lemma have_seen P s st e : have P s -> In st body -> stmt_expr st = Some e -> (forall m, mentions e m -> is_ordered body m -> ~ In m P) -> seen root s e.
Proof.
  intros H Hst Ee O x Hx. pose proof (Exprs st e Hst Ee x Hx) as K. destruct x; auto.
  - apply (have_visible P); auto; [|apply O; left; auto]. exists st. split; auto. destruct st; simpl in Ee; try discriminate; injection Ee as ->; constructor; left; auto.
  - destruct K as (b & Hb & Hf). destruct (ha_subs _ _ H _ _ Hb) as (K1 & K2); [apply O; [right; eauto|right; eauto]|].
    unfold qualified_ref. destruct (lookup (ls_children s) scope); [|congruence]. rewrite K2.
    assert (Hq : In field (qualified_fields body scope)) by (apply qualified_In; eauto). apply position_In in Hq. destruct (position _ _); congruence.
Qed.
Local Notation all := (pending_of (with_closures body)).
Local Notation table := (deps_table body (defined_of body)).
Lemma in_all_ordered m : is_ordered body m <-> In m (map fst all).
Proof.
  split.
  - intros [(e & H)|(b & H)]; apply in_map_iff; [exists (m, WLet e)|exists (m, WScope (scope_closure m b))]; (split; [auto|]); apply pending_In; [left|right]; eauto.
  - intros H. apply in_map_iff in H as ((n & w) & <- & H). apply pending_In in H as [(e & H & _)|(b & H & _)]; [left|right]; simpl; eauto.
Qed.
Lemma scope_once n b b' : In (SScope n b) body -> In (SScope n b') body -> b = b'.
Proof.
  intros H H'. clear -ND H H'. induction body as [|st l IH]; [contradiction|].
  assert (ND' : NoDup (flat_map stmt_name l)) by (simpl in ND; destruct st; simpl in ND; try (apply NoDup_cons_iff in ND; tauto); auto).
  assert (Out : forall b, In (SScope n b) l -> In n (flat_map stmt_name l)) by (intros b0 Hb; apply in_flat_map; eexists; split; [exact Hb|left; auto]).
  destruct H as [->|H], H' as [H'|H']; auto; [injection H'; auto| |]; exfalso.
  - simpl in ND. apply NoDup_cons_iff in ND as (N & _). eauto.
  - subst. simpl in ND. apply NoDup_cons_iff in ND as (N & _). eauto.
Qed.
Lemma table_deps n w : In (n, w) all -> exists d, lookup table n = Some d /\ (forall m, In m d -> is_ordered body m /\ rank m < rank n) /\
  match w with
  | WLet e => In (SLet n e) body /\ forall m, mentions e m -> is_ordered body m -> m <> n -> In m d
  | WScope _ => exists b, In (SScope n b) body /\ w = WScope (scope_closure n b) /\ forall m, needs (SScope n b) m -> is_ordered body m -> m <> n -> In m d
  end.
Proof.
  intros H. destruct (lookup_table body (defined_of body) n ND) as (T1 & T2). apply pending_In in H as [(e & H & ->)|(b & H & ->)].
  - exists (deps_of (expr_names e) (defined_of body) n). split; [auto|]. split; [|split; auto].
    + intros m Hm. apply deps_of_In in Hm as (A & B & C). apply expr_names_In in A. apply defined_In in C. split; auto. apply (Lets n e H); auto.
    + intros m A B C. apply deps_of_In. rewrite expr_names_In, defined_In. auto.
  - assert (F : forall m, In m (body_free b) <-> needs (SScope n b) m).
    { intros m. rewrite body_free_In. split; [intros ((st & Hs & U) & N); econstructor; eauto|]. intros U. inversion U; subst. eauto. }
    exists (deps_of (body_free b) (defined_of body) n). split; [auto|]. split; [|exists b; split; auto; split; auto].
    + intros m Hm. apply deps_of_In in Hm as (A & B & C). apply F in A. apply defined_In in C. split; auto. apply (Subs n b H m A); auto.
    + intros m A B C. apply deps_of_In. rewrite F, defined_In. auto.
Qed.
Lemma work_total n w s P rest : have P s -> In (n, w) all -> (forall m, In m P <-> m = n \/ In m rest) ->
  (forall d m, lookup table n = Some d -> In m d -> ~ In m P) -> exists s', do_work root body n w s = Some s' /\ have rest s'.
Proof.
  intros Hv Ha Hp Hd. destruct (table_deps n w Ha) as (d & Ed & Rk & W). specialize (Hd d). destruct w as [e|cl].
  - destruct W as (Hs & Dm). destruct (lower_expr_total root e s) as (r & s1 & E1).
    { apply (have_seen P s (SLet n e) e); auto. intros m Hm O. apply (Hd m Ed). apply Dm; auto. intros ->. pose proof (proj2 (Lets n e Hs) n Hm O). lia. }
    simpl. rewrite E1. eexists. split; [reflexivity|]. apply (have_names P s s1 (lower_expr_names _ _ _ _ _ E1)) in Hv as [H1 H2 H3 H4].
    assert (One : forall m, lookup (ls_env s1) m <> None -> lookup ((n, r) :: ls_env s1) m <> None) by (intros m H; simpl; destruct (String.eqb_spec n m); [discriminate|auto]).
    split; simpl ls_env; simpl ls_children; simpl ls_fields; intros; eauto.
    + simpl. destruct (String.eqb_spec n m); [discriminate|]. eapply H3; eauto. intros Hm. apply Hp in Hm as [->|Hm]; auto.
    + eapply H4; [eauto|]. intros Hm. apply Hp in Hm as [->|Hm]; auto. clear -ND Hs H. assert (Two : In n (map fst all)) by (apply in_all_ordered; left; eauto).
      assert (T : forall l, NoDup (flat_map stmt_name l) -> In (SLet n e) l -> In (SScope n b) l -> False).
      { induction l as [|st l IH]; intros N A B; [contradiction|]. simpl in N. destruct A as [->|A], B as [B|B]; try discriminate.
        - simpl in N. apply NoDup_cons_iff in N as (N & _). apply N, in_flat_map. eexists. split; [exact B|left; auto].
        - subst. simpl in N. apply NoDup_cons_iff in N as (N & _). apply N, in_flat_map. eexists. split; [exact A|left; auto].
        - apply IH; auto. destruct st; simpl in N; try (apply NoDup_cons_iff in N; tauto); auto. }
      exact (T body ND Hs H).
  - destruct W as (b & Hs & [= ->] & Dm). simpl. destruct (Closures n b Hs (ls_env s) (qualified_fields body n)) as (child & Ec).
    + intros m Hm. assert (U : needs (SScope n b) m) by (apply body_free_In in Hm as ((st & A & B) & C); econstructor; eauto).
      destruct (Subs n b Hs m U) as (V & O). apply (have_visible P); eauto. intros Om. apply (Hd m Ed). apply Dm; auto. intros ->. specialize (O Om). lia.
    + intros f Hf. apply qualified_In in Hf as (st & e & Hst & Ee & Hx). destruct (Exprs st e Hst Ee _ Hx) as (b' & Hb & Hv'). rewrite (scope_once n b b'); auto.
    + rewrite Ec. eexists. split; [reflexivity|]. destruct Hv as [H1 H2 H3 H4]. split; simpl ls_env; simpl ls_children; simpl ls_fields; intros; eauto.
      * eapply H3; eauto. intros Hm. apply Hp in Hm as [->|Hm]; auto.
        assert (T : forall l, NoDup (flat_map stmt_name l) -> In (SLet n e) l -> In (SScope n b) l -> False).
        { clear. induction l as [|st l IH]; intros N A B; [contradiction|]. simpl in N. destruct A as [->|A], B as [B|B]; try discriminate.
          - simpl in N. apply NoDup_cons_iff in N as (N & _). apply N, in_flat_map. eexists. split; [exact B|left; auto].
          - subst. simpl in N. apply NoDup_cons_iff in N as (N & _). apply N, in_flat_map. eexists. split; [exact A|left; auto].
          - apply IH; auto. destruct st; simpl in N; try (apply NoDup_cons_iff in N; tauto); auto. }
        exact (T body ND H Hs).
      * simpl. destruct (String.eqb_spec n m); [subst; split; [discriminate|auto]|]. eapply H4; eauto. intros Hm. apply Hp in Hm as [->|Hm]; auto.
Qed.
Lemma loop_total fuel : forall P D s, length P <= fuel -> NoDup (map fst P) -> incl P all -> have (map fst P) s ->
  (forall n w, In (n, w) P -> exists d d0, lookup D n = Some d /\ lookup table n = Some d0 /\ forall m, In m d <-> In m d0 /\ In m (map fst P)) ->
  exists s', lower_pending root body fuel P D s = Some s' /\ have [] s'.
Proof.
  induction fuel as [|fuel IH]; intros P D s L N I Hv T; (destruct P as [|p0 P0] eqn:EP; [exists s; split; auto|]); [simpl in L; lia|]. rewrite <- EP in *.
  assert (Rd : exists n w, In (n, w) P /\ lookup D n = Some []).
  { destruct (least rank (map fst P)) as (n & Hn & M); [rewrite EP; discriminate|]. apply in_map_iff in Hn as ((n' & w) & En & Hi). simpl in En. subst n'. exists n, w. split; auto.
    destruct (T n w Hi) as ([|m d] & d0 & E & E0 & K); auto. exfalso. destruct (proj1 (K m) (or_introl eq_refl)) as (A & B).
    destruct (table_deps n w (I _ Hi)) as (d1 & E1 & Rk & _). rewrite E0 in E1. injection E1 as <-. destruct (Rk m A) as (_ & Lt). specialize (M m B). lia. }
  destruct (take_ready_total D P) as (n & w & rest & Et & Ed); [intros n w Hi; destruct (T n w Hi) as (d & _ & -> & _); discriminate|auto|].
  pose proof (take_ready_split _ _ _ _ _ Et) as Pm. assert (Hi : In (n, w) P) by (eapply Permutation_in; [apply Permutation_sym, Pm|left; auto]).
  assert (Pm' : Permutation (map fst P) (n :: map fst rest)) by (exact (Permutation_map fst Pm)).
  destruct (work_total n w s (map fst P) (map fst rest)) as (s1 & Ew & Hv1); auto.
  { intros m. split; [intros H; apply (Permutation_in _ Pm') in H as [<-|H]; auto|]. intros H. apply (Permutation_in _ (Permutation_sym Pm')). destruct H as [->|H]; [left|right]; auto. }
  { intros d0 m E0 Hm Hp. destruct (T n w Hi) as (d & d0' & E & E0' & K). rewrite Ed in E. injection E as <-. rewrite E0 in E0'. injection E0' as <-. exact (proj2 (K m) (conj Hm Hp)). }
  pose proof (Permutation_NoDup Pm' N) as N'. apply NoDup_cons_iff in N' as (Nn & N').
  destruct (IH rest (done_with n D) s1) as (s' & E & H'); auto.
  - apply Permutation_length in Pm. simpl in Pm. lia.
  - intros p Hp. apply I. eapply Permutation_in; [apply Permutation_sym, Pm|right; auto].
  - intros n' w' Hi'. assert (Hne : n' <> n) by (intros ->; apply Nn; exact (in_map fst _ _ Hi')).
    destruct (T n' w') as (d & d0 & E & E0 & K); [eapply Permutation_in; [apply Permutation_sym, Pm|right; auto]|].
    eexists _, d0. rewrite lookup_done. destruct (String.eqb_spec n' n); [contradiction|]. rewrite E. split; [reflexivity|]. split; auto.
    intros m. rewrite filter_In, negb_true_iff, String.eqb_neq, K. split.
    + intros ((A & B) & C). split; auto. apply (Permutation_in _ Pm') in B as [B|B]; [congruence|auto].
    + intros (A & B). split; [split; auto; apply (Permutation_in _ (Permutation_sym Pm')); right; auto|]. intros ->. auto.
  - exists s'. split; auto. rewrite EP at 1. cbn [lower_pending]. rewrite <- EP, Et, Ew. exact E.
Qed.
End Turn.

(** ** Whole scopes *)
Lemma binds_total root all vs : forall s, (forall n e, In (n, e) vs -> seen root s e /\ var_id all 0 n <> None) -> exists bs s', lower_binds root all vs s = Some (bs, s') /\ same_names s s'.
Proof.
  induction vs as [|[n e] vs IH]; intros s H; simpl; [exists [], s; split; auto; apply names_refl|].
  destruct (H n e (or_introl eq_refl)) as (He & Hi). destruct (lower_expr_total root e s He) as (r & s1 & E1). rewrite E1. pose proof (lower_expr_names _ _ _ _ _ E1) as N1. destruct (var_id all 0 n); [|congruence].
  destruct (IH s1) as (bs & s2 & -> & N2); [intros m e' Hm; destruct (H m e' (or_intror Hm)); split; auto; eapply seen_names; eauto|]. eexists _, _. split; [reflexivity|eapply names_trans; eauto].
Qed.
Lemma exports_total root es : forall s, (forall n e, In (n, e) es -> seen root s e) -> exists xs s', lower_exports root es s = Some (xs, s').
Proof.
  induction es as [|[n e] es IH]; intros s H; simpl; [eauto|].
  destruct (lower_expr_total root e s (H n e (or_introl eq_refl))) as (r & s1 & E1). rewrite E1. pose proof (lower_expr_names _ _ _ _ _ E1) as N1.
  destruct (IH s1) as (bs & s2 & ->); [intros m e' Hm; eapply seen_names; eauto; apply (H m e' (or_intror Hm))|]. eauto.
Qed.
Lemma fields_total s wanted : (forall f, In f wanted -> lookup (ls_env s) f <> None) -> exists xs, field_exports wanted s = Some xs.
Proof.
  unfold field_exports. induction wanted as [|f wanted IH]; intros H; [exists []; reflexivity|]. cbn [mapO]. destruct (lookup (ls_env s) f) eqn:E; [|exfalso; apply (H f); [left; auto|auto]].
  destruct IH as (xs & ->); [intros g Hg; apply H; right; auto|]. eexists. reflexivity.
Qed.
Lemma exports_In stmts n e : In (n, e) (exports_of stmts) <-> In (SExport n e) stmts.
Proof.
  induction stmts as [|st stmts IH]; simpl; [tauto|]. destruct st as [m e'|m e'|m b|m e']; simpl; rewrite IH; split; try (intros [H|H]; try discriminate; auto; fail); auto.
  - intros [[= -> ->]|H]; auto. - intros [[= -> ->]|H]; auto.
Qed.
Lemma scope_accepted root body : body_ok root body -> forall name penv wanted, (root = false -> forall m, In m (body_free body) -> lookup penv m <> None) -> (root = false -> forall f, In f wanted -> is_field body f) ->
  exists sc, lower_scope root name (with_closures body) penv wanted = Some sc.
Proof.
  induction 1 as [root body rank ND Lets VE Xr Subs IH Need]. intros name penv wanted Hp Hw. unfold lower_scope. rewrite map_fst_with.
  destruct (import_names_total (if root then [] else body_free body) penv ls_new) as (s0 & -> & K0); [destruct root; [intros n []|auto]|].
  assert (Exprs : forall st e, In st body -> stmt_expr st = Some e -> expr_ok root body e).
  { intros [n e|n e|n b|n e] e' Hst [= <-]; [apply (Lets n e Hst)|apply (VE n e); auto|apply (VE n e); auto]. }
  assert (NV : NoDup (map fst (vars_of body))) by (pose proof (Permutation_NoDup (names_split body) ND) as N; revert N; generalize (map fst (pending_of (with_closures body))); intros l; induction l; simpl; auto; intros N; apply NoDup_cons_iff in N; tauto).
  destruct (declare_spec (vars_of body) 0 s0) as (_ & _ & _ & _ & _ & _ & _ & D1 & D2). specialize (D2 NV).
  assert (Nv : forall n e, In (SVar n e) body -> exists i, nth_error (vars_of body) i = Some (n, e)) by (intros n e H; apply In_nth_error, vars_In; auto).
  destruct (loop_total root body rank ND Lets Need Exprs) with (fuel := length (pending_of (with_closures body))) (P := pending_of (with_closures body)) (D := deps_table body (defined_of body)) (s := declare_vars (vars_of body) 0 s0) as (s1 & -> & H1).
  - intros n b Hb penv' wanted' Hp' Hw'. apply (IH n b Hb); auto.
  - auto.
  - pose proof (Permutation_NoDup (names_split body) ND) as N. revert N. generalize (map fst (pending_of (with_closures body))). intros l. induction l as [|x l IHl]; simpl; intros N; [constructor|]. apply NoDup_cons_iff in N as (A & B). constructor; [rewrite in_app_iff in A; tauto|auto].
  - apply incl_refl.
  - split.
    + intros m e H. destruct (Nv m e H) as (i & Ei). rewrite (D2 i m e Ei). discriminate.
    + intros Hr m Hm. rewrite D1; [subst root; apply K0; auto|]. intros Hv. apply body_free_apart in Hm. apply Hm. apply (Permutation_in m (Permutation_sym (names_split body))), in_or_app. auto.
    + intros m e H Hn. exfalso. apply Hn. apply in_all_ordered. left; eauto.
    + intros m b H Hn. exfalso. apply Hn. apply in_all_ordered. right; eauto.
  - intros n w Hi. destruct (table_deps root body rank ND Lets Need n w Hi) as (d & Ed & Rk & _). exists d, d. split; auto. split; auto.
    intros m. split; [|tauto]. intros Hm. split; auto. apply in_all_ordered. apply Rk; auto.
  - assert (Seen : forall st e, In st body -> stmt_expr st = Some e -> seen root s1 e).
    { intros st e Hst Ee. apply (have_seen root body Exprs [] s1 st e); auto. }
    destruct (binds_total root (vars_of body) (vars_of body) s1) as (bs & s2 & -> & N2).
    { intros n e H. split; [apply (Seen (SVar n e)); auto; apply vars_In; auto|]. apply vars_In in H. destruct (Nv n e H) as (i & Ei). rewrite (var_id_spec _ 0 i n e NV Ei). discriminate. }
    destruct root.
    + destruct (exports_total true (exports_of body) s2) as (xs & s3 & ->); [|eauto]. intros n e H. apply exports_In in H. apply (seen_names true s1); auto. apply (Seen (SExport n e)); auto.
    + destruct (fields_total s2 wanted) as (xs & ->); [|eauto]. intros f Hf. rewrite (sn_env _ _ N2). destruct (Hw eq_refl f Hf) as [(e & [H|H])|(A & B)]; [eapply (ha_lets _ _ _ _ H1); eauto|eapply (ha_vars _ _ _ _ H1); eauto|apply (ha_outer _ _ _ _ H1); auto; apply body_free_In; auto].
Qed.
Lemma tree_accepted stmts : body_ok true stmts -> exists p, lower_tree stmts = Some p.
Proof. intros H. apply (scope_accepted true stmts H "root"); discriminate. Qed.
Lemma ok_perm root b b' : body_ok root b -> Permutation b b' -> body_ok root b'.
Proof.
  intros [rank ND L V X S N] P. assert (I : forall st, In st b <-> In st b') by (intros st; split; apply Permutation_in; auto using Permutation_sym).
  assert (Iv : forall n, is_value b n <-> is_value b' n) by (intros n; unfold is_value; split; intros (e & [H|H]); exists e; (left + right); apply I; exact H).
  assert (Io : forall n, is_ordered b' n -> is_ordered b n) by (intros n [(e & H)|(x & H)]; [left|right]; eexists; apply I; eauto).
  assert (In' : forall n, ~ In n (flat_map stmt_name b) <-> ~ In n (flat_map stmt_name b')).
  { intros n. split; intros H H'; apply H; apply in_flat_map in H' as (st & A & B); apply in_flat_map; exists st; split; auto; apply I; auto. }
  assert (Vi : forall n, visible root b n -> visible root b' n) by (intros n [H|(A & B)]; [left; apply Iv; auto|right; rewrite <- In'; auto]).
  assert (Ex : forall e, expr_ok root b e -> expr_ok root b' e).
  { intros e H x Hx. specialize (H x Hx). destruct x; auto. destruct H as (c & A & B). exists c. rewrite <- I. auto. }
  apply (BodyOk root b' rank).
  - eapply Permutation_NoDup; [apply Permutation_flat_map, P|auto].
  - intros n e H. apply I in H. destruct (L n e H) as (A & B). split; auto.
  - intros n e [H|H]; apply I in H; apply Ex, (V n e); auto.
  - intros n e H. apply (X n e), I, H.
  - intros n c H. apply (S n c), I, H.
  - intros n c H m U. apply I in H. destruct (N n c H m U) as (A & B). split; auto.
Qed.
Lemma ok_apart root b : body_ok root b -> program_apart b.
Proof.
  induction 1 as [root b rank ND L V X S IH N]. split; auto. intros [n e|n e|n c|n e] H; simpl; auto. destruct (IH n c H) as (A & B). split; auto.
  clear -B. induction c as [|st c IH]; auto. split; [apply B; left; auto|apply IH; intros st' H; apply B; right; auto].
Qed.
