(** Lowering: the states it goes through, and what the items it makes mean. *)
From Verif Require Import Model.RenderM Model.LowerM Spec.DdirSpec Spec.SourceSpec Proofs.DdirP Proofs.DdirMeansP Proofs.OptimizeP.
Local Open Scope nat_scope.

Section ExprInd.
Variable P : Expr -> Prop.
Hypothesis (H1 : forall n, P (EInput n)) (H2 : forall n, P (EImport n)) (H3 : forall n, P (EName n)) (H4 : forall s f, P (EQualified s f))
  (H5 : forall e p, P e -> P (EMap e p)) (H6 : forall l r p, P l -> P r -> P (EJoin l r p)) (H7 : forall e r, P e -> P (EReduce e r))
  (H8 : forall e t, P e -> P (EFilter e t)) (H9 : forall e, P e -> P (ENegate e)) (H10 : forall e t, P e -> P (EEnterAt e t))
  (H11 : forall e, P e -> P (ELiftIter e)) (H12 : forall e t, P e -> P (EFlatMap e t)) (H13 : forall e l, P e -> P (EInspect e l))
  (H14 : forall es, Forall P es -> P (EConcat es)) (H15 : forall e, P e -> P (EArrange e)).
Lemma expr_ind' e : P e.
Proof. revert e. fix F 1. intros [n|n|n|s f|e p|l r p|e r|e t|e|e t|e|e t|e l|es|e]; [apply H1|apply H2|apply H3|apply H4|apply H5, F|apply H6; apply F|apply H7, F|apply H8, F|apply H9, F|apply H10, F|apply H11, F|apply H12, F|apply H13, F| |apply H15, F].
  apply H14. induction es as [|e es IH]; constructor; [apply F|exact IH].
Qed.
End ExprInd.

(** ** States *)
Definition ref_in (nv : nat) (s : LS) (bound : nat) (r : Ref) : Prop :=
  match r with
  | RLocal i => i < bound /\ exists n, nth_error (ls_items s) i = Some (IOp n)
  | RChildExport i j => i < bound /\ exists c, nth_error (ls_items s) i = Some (ISub c) /\ j < length (sc_exports c)
  | RImport i => i < length (ls_imports s)
  | RVar i => i < nv
  end.
Definition here (s : LS) : nat := length (ls_items s).
Record sane (nv : nat) (s : LS) : Prop := {
  sa_inputs : forall n i, In (n, i) (ls_inputs s) -> exists nm, nth_error (ls_imports s) i = Some {| im_name := nm; im_from := SInput n |};
  sa_traces : forall n i, In (n, i) (ls_traces s) -> exists nm, nth_error (ls_imports s) i = Some {| im_name := nm; im_from := STrace n |};
  sa_env : forall n r, lookup (ls_env s) n = Some r -> ref_in nv s (here s) r;
  sa_fields : forall sc f r, qualified_ref sc f s = Some r -> ref_in nv s (here s) r;
  sa_items : forall n it r, nth_error (ls_items s) n = Some it -> In r (item_refs it) -> ref_in nv s n r;
  sa_kids : forall c, In (ISub c) (ls_items s) -> everywhere refs_ok c }.
Definition kid_ok (it : Item) : Prop := match it with ISub c => everywhere refs_ok c | IOp _ => True end.
Record ext (s s' : LS) : Prop := {
  xt_items : exists more, ls_items s' = ls_items s ++ more;
  xt_imports : exists more, ls_imports s' = ls_imports s ++ more }.
Record same_names (s s' : LS) : Prop := {
  sn_env : ls_env s' = ls_env s; sn_children : ls_children s' = ls_children s; sn_fields : ls_fields s' = ls_fields s }.

Lemma ext_refl s : ext s s. Proof. split; exists []; rewrite app_nil_r; auto. Qed.
Lemma ext_trans s1 s2 s3 : ext s1 s2 -> ext s2 s3 -> ext s1 s3.
Proof. intros [(a & A) (b & B)] [(c & C) (d & D)]. split; [exists (a ++ c); rewrite C, A, app_assoc; auto|exists (b ++ d); rewrite D, B, app_assoc; auto]. Qed.
Lemma ext_here s s' : ext s s' -> here s <= here s'.
Proof. intros [(a & A) _]. unfold here. rewrite A, app_length. lia. Qed.
Lemma names_refl s : same_names s s. Proof. split; auto. Qed.
Lemma names_trans s1 s2 s3 : same_names s1 s2 -> same_names s2 s3 -> same_names s1 s3. Proof. intros [] []. split; congruence. Qed.
Lemma names_qualified s s' sc f : same_names s s' -> qualified_ref sc f s' = qualified_ref sc f s.
Proof. intros [_ A B]. unfold qualified_ref. rewrite A, B. auto. Qed.
Lemma nth_ext {A} (l more : list A) i x : nth_error l i = Some x -> nth_error (l ++ more) i = Some x.
Proof. intros H. rewrite nth_error_app1; auto. apply nth_error_Some. congruence. Qed.
Lemma ref_in_ext nv s s' b b' r : ext s s' -> b <= b' -> ref_in nv s b r -> ref_in nv s' b' r.
Proof.
  intros [(a & A) (m & M)] Hb. destruct r as [i|i|i|i j]; simpl; rewrite ?A, ?M, ?app_length; try lia.
  - intros (H & n & E). split; [lia|]. exists n. apply nth_ext; auto.
  - intros (H & c & E & Hj). split; [lia|]. exists c. split; auto. apply nth_ext; auto.
Qed.

Lemma push_sane nv s it : sane nv s -> (forall r, In r (item_refs it) -> ref_in nv s (here s) r) -> kid_ok it -> ext s (ls_push s it) /\ same_names s (ls_push s it) /\ sane nv (ls_push s it).
Proof.
  intros S Hr Hk. assert (X : ext s (ls_push s it)) by (split; [exists [it]|exists []; rewrite app_nil_r]; auto). split; auto. split; [split; auto|].
  assert (L : here s <= here (ls_push s it)) by (apply ext_here; auto). split.
  - apply S.
  - apply S.
  - intros n r E. eapply ref_in_ext; [exact X|exact L|]. eapply sa_env; eauto.
  - intros sc f r E. eapply ref_in_ext; [exact X|exact L|]. eapply sa_fields; eauto.
  - intros n it' r E Hi. simpl in E. destruct (lt_dec n (here s)) as [Hn|Hn].
    + rewrite nth_error_app1 in E by auto. eapply ref_in_ext; [exact X|apply Nat.le_refl|]. eapply sa_items; eauto.
    + rewrite nth_error_app2 in E by (unfold here in Hn; lia). unfold here in Hn. destruct (n - length (ls_items s)) as [|k] eqn:Ek; simpl in E.
      * injection E as <-. replace n with (here s) by (unfold here; lia). eapply ref_in_ext; [exact X|apply Nat.le_refl|]. auto.
      * destruct k; discriminate.
  - intros c Hc. simpl in Hc. apply in_app_or in Hc as [Hc|[->|[]]]; [apply (sa_kids _ _ S); auto|exact Hk].
Qed.
Lemma push_local nv s n : ref_in nv (ls_push s (IOp n)) (here (ls_push s (IOp n))) (RLocal (here s)).
Proof.
  unfold here; simpl. rewrite app_length; simpl. split; [lia|]. exists n. rewrite nth_error_app2 by lia. rewrite Nat.sub_diag. auto.
Qed.

Definition step_good nv (s : LS) (out : option (Ref * LS)) : Prop :=
  match out with Some (r, s') => ext s s' /\ same_names s s' /\ sane nv s' /\ ref_in nv s' (here s') r | None => True end.
Lemma push_good nv s s1 (nd : Node) : ext s s1 -> same_names s s1 -> sane nv s1 -> (forall r, In r (node_refs nd) -> ref_in nv s1 (here s1) r) ->
  step_good nv s (Some (push_op nd s1)).
Proof.
  intros X N S H. destruct (push_sane nv s1 (IOp nd) S H I) as (X' & N' & S'). split; [exact (ext_trans _ _ _ X X')|]. split; [exact (names_trans _ _ _ N N')|].
  split; [exact S'|]. apply push_local.
Qed.
Fixpoint lower_each (root : bool) (es : list Expr) (s : LS) : option (list Ref * LS) :=
  match es with [] => Some ([], s) | e :: es => ' (r, s) <- lower_expr root e s; ' (rs, s) <- lower_each root es s; Some (r :: rs, s) end.
Lemma lower_concat_eq root es s : lower_expr root (EConcat es) s = (' (rs, s) <- lower_each root es s; Some (push_op (NConcat rs) s)).
Proof.
  cbn [lower_expr]. match goal with |- context [?f es s] => assert (G : forall es s, f es s = lower_each root es s) end; [|rewrite G; auto].
  clear. induction es as [|e es IH]; intros s; [reflexivity|]. cbn beta match fix. cbn [lower_each]. destruct (lower_expr root e s) as [[r s1]|]; auto. rewrite IH. auto.
Qed.

Lemma lower_expr_good nv root e : forall s, sane nv s -> step_good nv s (lower_expr root e s).
Proof.
  assert (One : forall e0 (mk : Ref -> Node), (forall r, node_refs (mk r) = [r]) -> (forall s, sane nv s -> step_good nv s (lower_expr root e0 s)) ->
    forall s, sane nv s -> step_good nv s (' (r, s) <- lower_expr root e0 s; Some (push_op (mk r) s))).
  { intros e0 mk Hm IH s S. specialize (IH s S). destruct (lower_expr root e0 s) as [[r s1]|]; [|exact I]. destruct IH as (X & N & S1 & R).
    apply push_good; auto. rewrite Hm. intros r' [<-|[]]; auto. }
  induction e as [n|n|n|sc f|e p IHe|l r p IHl IHr|e red IHe|e t IHe|e IHe|e t IHe|e IHe|e t IHe|e lab IHe|es IHes|e IHe] using expr_ind'; intros s S.
  - simpl. unfold input_ref. destruct root; [|exact I]. destruct (find _ (ls_inputs s)) as [[m i]|] eqn:Ef.
    + apply find_some in Ef as (Hi & _). destruct (sa_inputs _ _ S _ _ Hi) as (nm & E). split; [apply ext_refl|]. split; [apply names_refl|]. split; auto. simpl. apply nth_error_Some. congruence.
    + set (s' := {| ls_items := _ |}). assert (X : ext s s') by (split; [exists []; rewrite app_nil_r|eexists]; reflexivity). split; auto. split; [split; auto|].
      split; [|simpl; rewrite app_length; simpl; lia]. split.
      * intros k i [H|H]; [injection H as <- <-; exists "input"%string; simpl; rewrite nth_error_app2, Nat.sub_diag by lia; auto|].
        destruct (sa_inputs _ _ S _ _ H) as (nm & E). exists nm. simpl. apply nth_ext; auto.
      * intros k i H. destruct (sa_traces _ _ S _ _ H) as (nm & E). exists nm. simpl. apply nth_ext; auto.
      * intros k r E. eapply ref_in_ext; [exact X|apply Nat.le_refl|]. exact (sa_env _ _ S k r E).
      * intros a b r E. eapply ref_in_ext; [exact X|apply Nat.le_refl|]. exact (sa_fields _ _ S a b r E).
      * intros k it r E Hr. eapply ref_in_ext; [exact X|apply Nat.le_refl|]. exact (sa_items _ _ S k it r E Hr).
      * apply (sa_kids _ _ S).
  - simpl. unfold trace_ref. destruct root; [|exact I]. destruct (lookup (ls_traces s) n) as [i|] eqn:Ef.
    + assert (Hi : In (n, i) (ls_traces s)).
      { clear -Ef. induction (ls_traces s) as [|[k v] m IH]; simpl in *; [discriminate|]. destruct (String.eqb_spec k n); [injection Ef as <-; subst; auto|auto]. }
      destruct (sa_traces _ _ S _ _ Hi) as (nm & E). split; [apply ext_refl|]. split; [apply names_refl|]. split; auto. simpl. apply nth_error_Some. congruence.
    + set (s' := {| ls_items := _ |}). assert (X : ext s s') by (split; [exists []; rewrite app_nil_r|eexists]; reflexivity). split; auto. split; [split; auto|].
      split; [|simpl; rewrite app_length; simpl; lia]. split.
      * intros k i H. destruct (sa_inputs _ _ S _ _ H) as (nm & E). exists nm. simpl. apply nth_ext; auto.
      * intros k i [H|H]; [injection H as <- <-; exists n; simpl; rewrite nth_error_app2, Nat.sub_diag by lia; auto|].
        destruct (sa_traces _ _ S _ _ H) as (nm & E). exists nm. simpl. apply nth_ext; auto.
      * intros k r E. eapply ref_in_ext; [exact X|apply Nat.le_refl|]. exact (sa_env _ _ S k r E).
      * intros a b r E. eapply ref_in_ext; [exact X|apply Nat.le_refl|]. exact (sa_fields _ _ S a b r E).
      * intros k it r E Hr. eapply ref_in_ext; [exact X|apply Nat.le_refl|]. exact (sa_items _ _ S k it r E Hr).
      * apply (sa_kids _ _ S).
  - simpl. destruct (lookup (ls_env s) n) as [r|] eqn:E; [|exact I]. split; [apply ext_refl|]. split; [apply names_refl|]. split; auto. eapply sa_env; eauto.
  - simpl. destruct (qualified_ref sc f s) as [r|] eqn:E; [|exact I]. split; [apply ext_refl|]. split; [apply names_refl|]. split; auto. eapply sa_fields; eauto.
  - apply (One e (fun r => NLinear r _)); auto.
  - simpl. specialize (IHl s S). destruct (lower_expr root l s) as [[lr s1]|]; [|exact I]. destruct IHl as (X1 & N1 & S1 & R1).
    destruct (push_sane nv s1 (IOp (NArrange lr)) S1) as (X2 & N2 & S2); [intros x [<-|[]]; auto|exact I|].
    pose proof (push_local nv s1 (NArrange lr)) as L2. fold (here s1). set (s2 := ls_push s1 _) in *.
    specialize (IHr s2 S2). destruct (lower_expr root r s2) as [[rr s3]|]; [|exact I]. destruct IHr as (X3 & N3 & S3 & R3).
    destruct (push_sane nv s3 (IOp (NArrange rr)) S3) as (X4 & N4 & S4); [intros x [<-|[]]; auto|exact I|].
    pose proof (push_local nv s3 (NArrange rr)) as L4. fold (here s3). set (s4 := ls_push s3 _) in *.
    apply push_good; auto.
    + eapply ext_trans; [exact X1|]. eapply ext_trans; [exact X2|]. eapply ext_trans; eauto.
    + eapply names_trans; [exact N1|]. eapply names_trans; [exact N2|]. eapply names_trans; eauto.
    + assert (X24 : ext s2 s4) by (eapply ext_trans; eauto). intros x [<-|[<-|[]]]; auto. eapply ref_in_ext; [exact X24|apply ext_here, X24|]. exact L2.
  - simpl. specialize (IHe s S). destruct (lower_expr root e s) as [[lr s1]|]; [|exact I]. destruct IHe as (X1 & N1 & S1 & R1).
    destruct (push_sane nv s1 (IOp (NArrange lr)) S1) as (X2 & N2 & S2); [intros x [<-|[]]; auto|exact I|].
    pose proof (push_local nv s1 (NArrange lr)) as L2. fold (here s1). set (s2 := ls_push s1 _) in *.
    apply push_good; auto; [eapply ext_trans; eauto|eapply names_trans; eauto|]. intros x [<-|[]]; auto.
  - apply (One e (fun r => NLinear r _)); auto.
  - apply (One e (fun r => NLinear r _)); auto.
  - apply (One e (fun r => NLinear r _)); auto.
  - apply (One e (fun r => NLinear r _)); auto.
  - apply (One e (fun r => NLinear r _)); auto.
  - apply (One e (fun r => NInspect r _)); auto.
  - rewrite lower_concat_eq.
    assert (G : forall s, sane nv s -> match lower_each root es s with
      | Some (rs, s') => ext s s' /\ same_names s s' /\ sane nv s' /\ forall r, In r rs -> ref_in nv s' (here s') r | None => True end).
    { clear s S. induction IHes as [|e es He _ IH]; intros s S; cbn [lower_each]; [split; [apply ext_refl|]; split; [apply names_refl|]; split; auto; intros r []|].
      specialize (He s S). destruct (lower_expr root e s) as [[r s1]|]; [|exact I]. destruct He as (X & N & S1 & R). specialize (IH s1 S1).
      destruct (lower_each root es s1) as [[rs s2]|]; [|exact I]. destruct IH as (X' & N' & S2 & R'). split; [eapply ext_trans; eauto|]. split; [eapply names_trans; eauto|]. split; auto.
      intros x [<-|Hx]; auto. eapply ref_in_ext; [exact X'|apply ext_here, X'|]. auto. }
    specialize (G s S). destruct (lower_each root es s) as [[rs s1]|]; [|exact I]. destruct G as (X & N & S1 & R). apply push_good; auto.
  - apply (One e NArrange); auto.
Qed.

(** ** What items mean *)
Definition item_new (depth : nat) (look : Ref -> option coll) (it : Item) (x : rvalue) : Prop :=
  match it, x with
  | IOp nd, VOp c => node_means depth look nd c
  | ISub child, VSub outs => exists ims exs, imported look (sc_imports child) = Some ims /\ scope_means (S depth) child ims exs /\
      Forall2 (fun e o => exists l, at_times (left_time (S depth)) e = Some l /\ same_coll o l) exs outs
  | _, _ => False
  end.
Definition vals_ok (depth : nat) (ims vars : list coll) (its : list Item) (vals : list rvalue) : Prop :=
  length vals = length its /\ forall n it, nth_error its n = Some it -> item_means depth ims vars vals n it.

Lemma item_means_new depth ims vars vals n it :
  item_means depth ims vars vals n it <-> exists x, nth_error vals n = Some x /\ item_new depth (resolve (firstn n vals) ims vars) it x.
Proof.
  destruct it as [nd|child]; simpl.
  - split; [intros (c & E & M); eauto|]. intros ([c|] & E & M); [eauto|contradiction].
  - split; [intros (i & e & o & E & M); exists (VSub o); eauto|]. intros ([|o] & E & M); [contradiction|]. destruct M as (i & e & M). exists i, e, o. auto.
Qed.
Lemma vals_ok_nil depth ims vars vals : vals_ok depth ims vars [] vals <-> vals = [].
Proof. split; [intros [L _]; destruct vals; [auto|discriminate]|]. intros ->. split; auto. intros [|n] it; discriminate. Qed.
Lemma vals_ok_snoc depth ims vars its it vals : vals_ok depth ims vars (its ++ [it]) vals <->
  exists v x, vals = v ++ [x] /\ vals_ok depth ims vars its v /\ item_new depth (resolve v ims vars) it x.
Proof.
  split.
  - intros [L M]. rewrite app_length in L; simpl in L. destruct (exists_last (l := vals)) as (v & x & ->); [intros ->; simpl in L; lia|].
    rewrite app_length in L; simpl in L. assert (Lv : length v = length its) by lia. exists v, x. split; auto. split; [split; auto|].
    + intros n it' E. assert (Hn : n < length its) by (apply nth_error_Some; congruence).
      specialize (M n it'). rewrite nth_error_app1 in M by auto. specialize (M E). apply item_means_new in M as (y & Ey & M). apply item_means_new. exists y.
      rewrite nth_error_app1 in Ey by lia. split; auto. rewrite firstn_app in M. replace (n - length v) with 0 in M by lia. simpl in M. rewrite app_nil_r in M. auto.
    + specialize (M (length its) it). rewrite nth_error_app2, Nat.sub_diag in M by lia. specialize (M eq_refl). apply item_means_new in M as (y & Ey & M).
      rewrite <- Lv in Ey, M. rewrite nth_error_app2, Nat.sub_diag in Ey by lia. injection Ey as <-. rewrite firstn_app, Nat.sub_diag, firstn_all in M. simpl in M. rewrite app_nil_r in M. auto.
  - intros (v & x & -> & [L M] & N). split; [rewrite !app_length; simpl; lia|]. intros n it' E. apply item_means_new. destruct (lt_dec n (length its)) as [Hn|Hn].
    + rewrite nth_error_app1 in E by auto. apply M in E. apply item_means_new in E as (y & Ey & E). exists y. rewrite nth_error_app1 by lia. split; auto.
      rewrite firstn_app. replace (n - length v) with 0 by lia. simpl. rewrite app_nil_r. auto.
    + rewrite nth_error_app2 in E by lia. destruct (n - length its) as [|k] eqn:Ek; [|destruct k; discriminate]. injection E as <-.
      replace n with (length v) by lia. exists x. rewrite nth_error_app2, Nat.sub_diag by lia. split; auto. rewrite firstn_app, Nat.sub_diag, firstn_all. simpl. rewrite app_nil_r. auto.
Qed.
Lemma resolve_ext v more ims vars r c : resolve v ims vars r = Some c -> resolve (v ++ more) ims vars r = Some c.
Proof.
  destruct r as [i|i|i|i j]; simpl; auto.
  - destruct (nth_error v i) as [x|] eqn:E; [|discriminate]. rewrite (nth_ext _ more _ _ E). auto.
  - destruct (nth_error v i) as [x|] eqn:E; [|discriminate]. rewrite (nth_ext _ more _ _ E). auto.
Qed.
Lemma resolve_last v c ims vars : resolve (v ++ [VOp c]) ims vars (RLocal (length v)) = Some c.
Proof. simpl. rewrite nth_error_app2, Nat.sub_diag by lia. auto. Qed.
Lemma linear_same ops depth a b : same_coll a b -> same_coll (linear_of ops depth a) (linear_of ops depth b).
Proof. rewrite <- !agree_same_coll. apply linear_agree, down_always. Qed.
Lemma joined_same p a b a' b' : same_coll a a' -> same_coll b b' -> same_coll (joined_of p a b) (joined_of p a' b').
Proof. rewrite <- !agree_same_coll. apply joined_agree, down_always. Qed.

(** The first is there and, if the second is, it is the same; if [strict], the second is. *)
Definition stands_for (strict : bool) (o1 o2 : option coll) : Prop := exists c, o1 = Some c /\ match o2 with Some a => same_coll c a | None => strict = false end.

Section Means.
Variables (inputs : nat -> coll) (traces : string -> coll) (depth : nat) (ims vars : list coll).
Variables (rho : string -> option coll) (sub : string -> string -> option coll).
Local Notation look v := (resolve v ims vars).
Local Notation means := (expr_means inputs traces depth rho sub).
Record good (strict : bool) (s : LS) (v : list rvalue) : Prop := {
  go_env : forall n r, lookup (ls_env s) n = Some r -> stands_for strict (look v r) (rho n);
  go_fields : forall sc f r, qualified_ref sc f s = Some r -> stands_for strict (look v r) (sub sc f) }.
Definition covers (is : list Import) : Prop :=
  forall i im, nth_error is i = Some im -> match im_from im with SInput n => nth_error ims i = Some (inputs n) | STrace n => nth_error ims i = Some (traces n) | SParent _ => True end.
Lemma covers_ext s s' : ext s s' -> covers (ls_imports s') -> covers (ls_imports s).
Proof. intros [_ (m & E)] C i im H. apply C. rewrite E. apply nth_ext; auto. Qed.
Lemma stands_ext st v more r o : stands_for st (look v r) o -> stands_for st (look (v ++ more) r) o.
Proof. intros (c & E & H). exists c. split; auto. apply resolve_ext; auto. Qed.
Lemma good_ext st s s' v more : same_names s s' -> good st s v -> good st s' (v ++ more).
Proof.
  intros N [G1 G2]. split.
  - intros n r E. rewrite (sn_env _ _ N) in E. apply stands_ext; auto.
  - intros sc f r E. rewrite (names_qualified _ _ _ _ N) in E. apply stands_ext; auto.
Qed.
Lemma expr_closed e : forall c c', same_coll c c' -> means e c -> means e c'.
Proof.
  assert (St : forall c c' x, same_coll c c' -> same_coll c x -> same_coll c' x) by (intros; eapply same_coll_trans; [apply same_coll_sym|]; eauto).
  destruct e; intros c c' H; cbn [expr_means]; try (intros (a & E & M); exists a; split; auto; eapply St; eauto; fail); try (apply St; auto; fail).
  - intros (a & b & E & E' & M). exists a, b. split; auto. split; auto. eapply St; eauto.
  - intros (a & E & M). exists a. split; auto. eapply reduced_closed; [apply same_coll_refl|exact H|exact M].
  - intros (cs & E & M & M'). exists cs. split; auto. split; auto. eapply St; eauto.
Qed.
Lemma means_concat es c : means (EConcat es) c <-> exists cs, Forall2 means es cs /\ cs <> [] /\ same_coll c (concat cs).
Proof.
  cbn [expr_means]. match goal with |- context [?f es _] => assert (G : forall es cs, f es cs <-> Forall2 means es cs) end.
  { clear. induction es as [|e es IH]; intros [|c cs]; split; intros H; try (contradiction || constructor); try (inversion H; fail); auto.
    - apply H. - apply IH, H. - inversion H; auto. - apply IH. inversion H; auto. }
  split; intros (cs & H); exists cs; (split; [apply G, H|apply H]).
Qed.

(** What one expression's items mean, read from their values; and values for them, from its meaning. *)
Definition fwd (e : Expr) (s : LS) (out : option (Ref * LS)) : Prop :=
  match out with
  | Some (r, s') => covers (ls_imports s') -> forall vals, vals_ok depth ims vars (ls_items s') vals ->
      exists v more, vals = v ++ more /\ vals_ok depth ims vars (ls_items s) v /\ (good true s v -> exists c, look vals r = Some c /\ means e c)
  | None => True
  end.
Definition bwd (e : Expr) (s : LS) (out : option (Ref * LS)) : Prop :=
  match out with
  | Some (r, s') => covers (ls_imports s') -> forall v, vals_ok depth ims vars (ls_items s) v -> good false s v -> forall c, means e c ->
      exists more c', vals_ok depth ims vars (ls_items s') (v ++ more) /\ look (v ++ more) r = Some c' /\ same_coll c c'
  | None => True
  end.
Section OneStep.
Variables (nv : nat) (root : bool) (e0 e : Expr) (mk : Ref -> Node) (R : coll -> coll -> Prop).
Hypothesis (Hn : forall lk r c, node_means depth lk (mk r) c <-> exists a, lk r = Some a /\ R a c) (He : forall c, means e c <-> exists a, means e0 a /\ R a c).
Hypothesis (Hr : forall a a' c, same_coll a a' -> R a c -> R a' c).
Lemma one_fwd s : sane nv s -> fwd e0 s (lower_expr root e0 s) -> fwd e s (' (r, s) <- lower_expr root e0 s; Some (push_op (mk r) s)).
Proof.
  intros S IH. destruct (lower_expr root e0 s) as [[r s1]|] eqn:E0; [|exact I]. intros C vals V.
  apply vals_ok_snoc in V as (v1 & x & -> & V & N). destruct x as [c|]; [|contradiction]. apply (Hn (look v1)) in N as (a & Ea & Ra).
  destruct (IH C v1 V) as (v & more & -> & Vv & G). exists v, (more ++ [VOp c]). rewrite app_assoc. split; auto. split; auto. intros Gv. destruct (G Gv) as (a' & Ea' & M).
  assert (a' = a) by congruence. subst a'. exists c. split; [|apply He; eauto]. replace (length (ls_items s1)) with (length (v ++ more)) by apply V. apply resolve_last.
Qed.
Lemma one_bwd s : sane nv s -> bwd e0 s (lower_expr root e0 s) -> bwd e s (' (r, s) <- lower_expr root e0 s; Some (push_op (mk r) s)).
Proof.
  intros S IH. destruct (lower_expr root e0 s) as [[r s1]|] eqn:E0; [|exact I]. intros C v V Gv c Mc. apply He in Mc as (a & Ma & Ra).
  destruct (IH C v V Gv a Ma) as (more & a' & V1 & Ea & Sa). exists (more ++ [VOp c]), c. rewrite app_assoc. split; [|split].
  - apply vals_ok_snoc. eexists _, _. split; [reflexivity|]. split; [exact V1|]. apply Hn. exists a'. split; auto. eapply Hr; eauto.
  - replace (length (ls_items s1)) with (length (v ++ more)) by apply V1. apply resolve_last.
  - apply same_coll_refl.
Qed.
End OneStep.

Lemma linear_rel ops a a' c : same_coll a a' -> same_coll c (linear_of ops depth a) -> same_coll c (linear_of ops depth a').
Proof. intros H H'. eapply same_coll_trans; [exact H'|]. apply linear_same; auto. Qed.
Lemma same_rel (a a' c : coll) : same_coll a a' -> same_coll c a -> same_coll c a'. Proof. intros H H'. eapply same_coll_trans; eauto. Qed.

Lemma input_fwd_bwd nv root n s : sane nv s -> fwd (EInput n) s (input_ref root n s) /\ bwd (EInput n) s (input_ref root n s).
Proof.
  intros S. unfold input_ref. destruct root; [|split; exact I].
  assert (G : forall i s', covers (ls_imports s') -> ls_items s' = ls_items s -> (exists nm, nth_error (ls_imports s') i = Some {| im_name := nm; im_from := SInput n |}) ->
    (forall vals, vals_ok depth ims vars (ls_items s') vals -> exists v more, vals = v ++ more /\ vals_ok depth ims vars (ls_items s) v /\ (good true s v -> exists c, look vals (RImport i) = Some c /\ means (EInput n) c)) /\
    (forall v, vals_ok depth ims vars (ls_items s) v -> good false s v -> forall c, means (EInput n) c -> exists more c', vals_ok depth ims vars (ls_items s') (v ++ more) /\ look (v ++ more) (RImport i) = Some c' /\ same_coll c c')).
  { intros i s' C E (nm & Hi). apply C in Hi. simpl in Hi. split.
    - intros vals V. rewrite E in V. exists vals, []. rewrite app_nil_r. split; auto. split; auto. intros _. exists (inputs n). split; auto. apply same_coll_refl.
    - intros v V _ c Mc. exists [], (inputs n). rewrite app_nil_r, E. split; auto. }
  destruct (find _ (ls_inputs s)) as [[m i]|] eqn:Ef.
  - apply find_some in Ef as (Hi & Hm). simpl in Hm. apply Nat.eqb_eq in Hm. subst m. destruct (sa_inputs _ _ S _ _ Hi) as (nm & E).
    split; intros C; apply (G i s C eq_refl (ex_intro _ nm E)).
  - set (s' := {| ls_items := _ |}).
    assert (K : exists nm, nth_error (ls_imports s') (length (ls_imports s)) = Some {| im_name := nm; im_from := SInput n |}).
    { exists "input"%string. simpl. rewrite nth_error_app2, Nat.sub_diag by lia. auto. }
    split; intros C; apply (G _ s' C eq_refl K).
Qed.
Lemma lookup_In {A} (m : list (string * A)) n v : lookup m n = Some v -> In (n, v) m.
Proof. induction m as [|[k w] m IH]; simpl; [discriminate|]. destruct (String.eqb_spec k n); [intros [= <-]; subst; auto|auto]. Qed.
Lemma trace_fwd_bwd nv root n s : sane nv s -> fwd (EImport n) s (trace_ref root n s) /\ bwd (EImport n) s (trace_ref root n s).
Proof.
  intros S. unfold trace_ref. destruct root; [|split; exact I].
  assert (G : forall i s', covers (ls_imports s') -> ls_items s' = ls_items s -> (exists nm, nth_error (ls_imports s') i = Some {| im_name := nm; im_from := STrace n |}) ->
    (forall vals, vals_ok depth ims vars (ls_items s') vals -> exists v more, vals = v ++ more /\ vals_ok depth ims vars (ls_items s) v /\ (good true s v -> exists c, look vals (RImport i) = Some c /\ means (EImport n) c)) /\
    (forall v, vals_ok depth ims vars (ls_items s) v -> good false s v -> forall c, means (EImport n) c -> exists more c', vals_ok depth ims vars (ls_items s') (v ++ more) /\ look (v ++ more) (RImport i) = Some c' /\ same_coll c c')).
  { intros i s' C E (nm & Hi). apply C in Hi. simpl in Hi. split.
    - intros vals V. rewrite E in V. exists vals, []. rewrite app_nil_r. split; auto. split; auto. intros _. exists (traces n). split; auto. apply same_coll_refl.
    - intros v V _ c Mc. exists [], (traces n). rewrite app_nil_r, E. split; auto. }
  destruct (lookup (ls_traces s) n) as [i|] eqn:Ef.
  - destruct (sa_traces _ _ S _ _ (lookup_In _ _ _ Ef)) as (nm & E).
    split; intros C; apply (G i s C eq_refl (ex_intro _ nm E)).
  - set (s' := {| ls_items := _ |}).
    assert (K : exists nm, nth_error (ls_imports s') (length (ls_imports s)) = Some {| im_name := nm; im_from := STrace n |}).
    { exists n. simpl. rewrite nth_error_app2, Nat.sub_diag by lia. auto. }
    split; intros C; apply (G _ s' C eq_refl K).
Qed.

Lemma expr_fwd_bwd nv root e : forall s, sane nv s -> fwd e s (lower_expr root e s) /\ bwd e s (lower_expr root e s).
Proof.
  assert (One : forall e0 e mk R, (forall lk r c, node_means depth lk (mk r) c <-> exists a, lk r = Some a /\ R a c) -> (forall c, means e c <-> exists a, means e0 a /\ R a c) ->
    (forall a a' c, same_coll a a' -> R a c -> R a' c) -> (forall s, sane nv s -> fwd e0 s (lower_expr root e0 s) /\ bwd e0 s (lower_expr root e0 s)) ->
    forall s, sane nv s -> let out := ' (r, s) <- lower_expr root e0 s; Some (push_op (mk r) s) in fwd e s out /\ bwd e s out).
  { intros e0 e1 mk R Hn He Hr IH s S out. destruct (IH s S) as [F B]. split; [eapply one_fwd; eauto|eapply one_bwd; eauto]. }
  induction e as [n|n|n|sc f|e p IHe|l r p IHl IHr|e red IHe|e t IHe|e IHe|e t IHe|e IHe|e t IHe|e lab IHe|es IHes|e IHe] using expr_ind'; intros s S.
  - eapply input_fwd_bwd; eauto.
  - eapply trace_fwd_bwd; eauto.
  - simpl. destruct (lookup (ls_env s) n) as [r|] eqn:E; [|split; exact I]. split.
    + intros _ vals V. exists vals, []. rewrite app_nil_r. split; auto. split; auto. intros G. destruct (go_env _ _ _ G _ _ E) as (c & Ec & H). exists c. split; auto. destruct (rho n) as [a|] eqn:Ea; [exists a; auto|discriminate].
    + intros _ v V G c (a & Ea & H). destruct (go_env _ _ _ G _ _ E) as (c' & Ec & H'). exists [], c'. rewrite app_nil_r. split; auto. split; auto.
      rewrite Ea in H'. eapply same_coll_trans; [exact H|apply same_coll_sym; auto].
  - simpl. destruct (qualified_ref sc f s) as [r|] eqn:E; [|split; exact I]. split.
    + intros _ vals V. exists vals, []. rewrite app_nil_r. split; auto. split; auto. intros G. destruct (go_fields _ _ _ G _ _ _ E) as (c & Ec & H). exists c. split; auto. destruct (sub sc f) as [a|] eqn:Ea; [exists a; auto|discriminate].
    + intros _ v V G c (a & Ea & H). destruct (go_fields _ _ _ G _ _ _ E) as (c' & Ec & H'). exists [], c'. rewrite app_nil_r. split; auto. split; auto.
      rewrite Ea in H'. eapply same_coll_trans; [exact H|apply same_coll_sym; auto].
  - apply (One e (EMap e p) (fun r => NLinear r [LProject p]) (fun a c => same_coll c (linear_of [LProject p] depth a))); auto; [reflexivity|reflexivity|apply linear_rel].
  - cbn [lower_expr]. pose proof (lower_expr_good nv root l s S) as Gl. destruct (IHl s S) as [Fl Bl]. destruct (lower_expr root l s) as [[lr s1]|]; [|split; exact I].
    destruct Gl as (X1 & N1 & S1 & R1). cbn [push_op]. destruct (push_sane nv s1 (IOp (NArrange lr)) S1) as (X2 & N2 & S2); [intros x [<-|[]]; auto|exact I|].
    set (s2 := ls_push s1 _) in *. pose proof (lower_expr_good nv root r s2 S2) as Gr. destruct (IHr s2 S2) as [Fr Br]. destruct (lower_expr root r s2) as [[rr s3]|]; [|split; exact I].
    destruct Gr as (X3 & N3 & S3 & R3). split.
    + intros C vals V. change (covers (ls_imports s3)) in C. pose proof (covers_ext _ _ X3 C) as C2. pose proof (covers_ext _ _ X2 C2) as C1.
      apply vals_ok_snoc in V as (v5 & x & -> & V & N). destruct x as [c|]; [|contradiction]. cbn [ls_push ls_items] in V, N.
      pose proof (proj1 V) as L5.
      apply vals_ok_snoc in V as (v4 & x & -> & V & N'). destruct x as [b|]; [|contradiction]. pose proof (proj1 V) as L4.
      destruct (Fr C v4 V) as (v3 & m3 & -> & V3 & Gr). cbn [s2 ls_push ls_items] in V3.
      apply vals_ok_snoc in V3 as (v1 & x & -> & V1 & N1'). destruct x as [a|]; [|contradiction]. pose proof (proj1 V1) as L1.
      destruct (Fl C1 v1 V1) as (v & m & -> & Vv & Gl). exists v, (m ++ [VOp a] ++ m3 ++ [VOp b] ++ [VOp c]). rewrite !app_assoc. split; [reflexivity|]. split; [exact Vv|]. intros G.
      destruct (Gl G) as (a0 & Ea0 & Ma). destruct N1' as (a1 & Ea1 & Sa). simpl in Ea1. rewrite Ea0 in Ea1. injection Ea1 as <-.
      destruct Gr as (b0 & Eb0 & Mb). { rewrite <- app_assoc. exact (good_ext _ s s2 v _ (names_trans _ _ _ N1 N2) G). }
      destruct N' as (b1 & Eb1 & Sb). simpl in Eb1. rewrite Eb0 in Eb1. injection Eb1 as <-.
      destruct N as (a2 & b2 & E1 & E2 & Sc). exists c. split; [replace (length (ls_items (ls_push s3 (IOp (NArrange rr))))) with (length (((((v ++ m) ++ [VOp a]) ++ m3) ++ [VOp b]))) by exact L5; apply resolve_last|].
      exists a0, b0. split; auto. split; auto. eapply same_coll_trans; [exact Sc|]. apply joined_same.
      * rewrite <- L1 in E1. rewrite <- !app_assoc in E1. rewrite !app_assoc in E1.
        assert (E1' : resolve ((((v ++ m) ++ [VOp a]) ++ m3) ++ [VOp b]) ims vars (RLocal (length (v ++ m))) = Some a).
        { apply resolve_ext, resolve_ext, resolve_last. }
        rewrite E1' in E1. injection E1 as <-. auto.
      * rewrite <- L4 in E2. rewrite resolve_last in E2. injection E2 as <-. auto.
    + intros C v V G c (a & b & Ma & Mb & Sc). change (covers (ls_imports s3)) in C. pose proof (covers_ext _ _ X3 C) as C2. pose proof (covers_ext _ _ X2 C2) as C1.
      destruct (Bl C1 v V G a Ma) as (m & a' & V1 & Ea & Sa).
      assert (V2 : vals_ok depth ims vars (ls_items s2) ((v ++ m) ++ [VOp a'])).
      { apply vals_ok_snoc. eexists _, _. split; [reflexivity|]. split; [exact V1|]. exists a'. split; auto. apply same_coll_refl. }
      destruct (Br C _ V2) with (c := b) as (m3 & b' & V3 & Eb & Sb); auto. { rewrite <- app_assoc. exact (good_ext _ s s2 v _ (names_trans _ _ _ N1 N2) G). }
      assert (V4 : vals_ok depth ims vars (ls_items s3 ++ [IOp (NArrange rr)]) ((((v ++ m) ++ [VOp a']) ++ m3) ++ [VOp b'])).
      { apply vals_ok_snoc. eexists _, _. split; [reflexivity|]. split; [exact V3|]. exists b'. split; auto. apply same_coll_refl. }
      exists (m ++ [VOp a'] ++ m3 ++ [VOp b'] ++ [VOp c]), c. rewrite !app_assoc. split; [|split; [|apply same_coll_refl]].
      * apply vals_ok_snoc. eexists _, _. split; [reflexivity|]. split; [exact V4|]. exists a', b'.
        replace (length (ls_items s1)) with (length (v ++ m)) by apply V1. split; [apply resolve_ext, resolve_ext, resolve_last|].
        replace (length (ls_items s3)) with (length (((v ++ m) ++ [VOp a']) ++ m3)) by apply V3. split; [apply resolve_last|].
        eapply same_coll_trans; [exact Sc|]. apply joined_same; auto.
      * replace (length (ls_items (ls_push s3 (IOp (NArrange rr))))) with (length ((((v ++ m) ++ [VOp a']) ++ m3) ++ [VOp b'])) by apply V4. apply resolve_last.
  - cbn [lower_expr]. pose proof (lower_expr_good nv root e s S) as Gl. destruct (IHe s S) as [Fl Bl]. destruct (lower_expr root e s) as [[lr s1]|]; [|split; exact I].
    cbn [push_op]. split.
    + intros C vals V. apply vals_ok_snoc in V as (v5 & x & -> & V & N). destruct x as [c|]; [|contradiction]. cbn [ls_push ls_items] in V, N. pose proof (proj1 V) as L5.
      apply vals_ok_snoc in V as (v4 & x & -> & V & N'). destruct x as [b|]; [|contradiction]. pose proof (proj1 V) as L4.
      destruct (Fl C v4 V) as (v & m & -> & Vv & Gl'). exists v, (m ++ [VOp b] ++ [VOp c]). rewrite !app_assoc. split; [reflexivity|]. split; [exact Vv|]. intros G.
      destruct (Gl' G) as (a & Ea & Ma). exists c. split; [replace (length (ls_items (ls_push s1 (IOp (NArrange lr))))) with (length ((v ++ m) ++ [VOp b])) by exact L5; apply resolve_last|].
      exists a. split; auto. destruct N' as (a' & Ea' & Sb). simpl in Ea'. rewrite Ea in Ea'. injection Ea' as <-. destruct N as (b' & Eb' & Sc). rewrite <- L4 in Eb'. rewrite resolve_last in Eb'. injection Eb' as <-.
      eapply reduced_closed; [exact Sb|apply same_coll_refl|exact Sc].
    + intros C v V G c (a & Ma & Sc). destruct (Bl C v V G a Ma) as (m & a' & V1 & Ea & Sa).
      assert (V2 : vals_ok depth ims vars (ls_items s1 ++ [IOp (NArrange lr)]) ((v ++ m) ++ [VOp a'])).
      { apply vals_ok_snoc. eexists _, _. split; [reflexivity|]. split; [exact V1|]. exists a'. split; auto. apply same_coll_refl. }
      exists (m ++ [VOp a'] ++ [VOp c]), c. rewrite !app_assoc. split; [|split; [|apply same_coll_refl]].
      * apply vals_ok_snoc. eexists _, _. split; [reflexivity|]. split; [exact V2|]. exists a'. replace (length (ls_items s1)) with (length (v ++ m)) by apply V1. split; [apply resolve_last|].
        eapply reduced_closed; [exact Sa|apply same_coll_refl|exact Sc].
      * replace (length (ls_items (ls_push s1 (IOp (NArrange lr))))) with (length ((v ++ m) ++ [VOp a'])) by apply V2. apply resolve_last.
  - apply (One e (EFilter e t) (fun r => NLinear r [LFilter t]) (fun a c => same_coll c (linear_of [LFilter t] depth a))); auto; [reflexivity|reflexivity|apply linear_rel].
  - apply (One e (ENegate e) (fun r => NLinear r [LNegate]) (fun a c => same_coll c (linear_of [LNegate] depth a))); auto; [reflexivity|reflexivity|apply linear_rel].
  - apply (One e (EEnterAt e t) (fun r => NLinear r [LEnterAt t]) (fun a c => same_coll c (linear_of [LEnterAt t] depth a))); auto; [reflexivity|reflexivity|apply linear_rel].
  - apply (One e (ELiftIter e) (fun r => NLinear r [LLiftIter]) (fun a c => same_coll c (linear_of [LLiftIter] depth a))); auto; [reflexivity|reflexivity|apply linear_rel].
  - apply (One e (EFlatMap e t) (fun r => NLinear r [LFlatMap t]) (fun a c => same_coll c (linear_of [LFlatMap t] depth a))); auto; [reflexivity|reflexivity|apply linear_rel].
  - apply (One e (EInspect e lab) (fun r => NInspect r lab) (fun a c => same_coll c a)); auto; [reflexivity|reflexivity|apply same_rel].
  - rewrite lower_concat_eq.
    assert (G : forall s, sane nv s -> match lower_each root es s with
      | Some (rs, s') => covers (ls_imports s') -> 
          (forall vals, vals_ok depth ims vars (ls_items s') vals -> exists v more, vals = v ++ more /\ vals_ok depth ims vars (ls_items s) v /\
             (good true s v -> exists cs, mapO (look vals) rs = Some cs /\ Forall2 means es cs)) /\
          (forall v, vals_ok depth ims vars (ls_items s) v -> good false s v -> forall cs, Forall2 means es cs ->
             exists more cs', vals_ok depth ims vars (ls_items s') (v ++ more) /\ mapO (look (v ++ more)) rs = Some cs' /\ Forall2 same_coll cs cs')
      | None => True end).
    { clear s S. induction IHes as [|e es He _ IH]; intros s S; cbn [lower_each].
      - intros C. split.
        + intros vals V. exists vals, []. rewrite app_nil_r. split; auto. split; auto. intros _. exists []. split; auto.
        + intros v V G cs Hcs. inversion Hcs. exists [], []. rewrite app_nil_r. split; auto.
      - destruct (He s S) as [F B]. pose proof (lower_expr_good nv root e s S) as Gd. destruct (lower_expr root e s) as [[r s1]|]; [|exact I]. destruct Gd as (X & N & S1 & R).
        specialize (IH s1 S1).
        assert (Gd : match lower_each root es s1 with Some (_, s2) => ext s1 s2 | None => True end).
        { clear -S1. revert s1 S1. induction es as [|e es IH]; intros s S; cbn [lower_each]; [apply ext_refl|]. pose proof (lower_expr_good nv root e s S) as Gd.
          destruct (lower_expr root e s) as [[r s1]|]; [|exact I]. destruct Gd as (X & N & S1 & R). specialize (IH s1 S1). destruct (lower_each root es s1) as [[rs s2]|]; [|exact I]. eapply ext_trans; eauto. }
        destruct (lower_each root es s1) as [[rs s2]|]; [|exact I]. intros C. destruct (IH C) as [F' B']. pose proof (covers_ext _ _ Gd C) as C1. split.
        + intros vals V. destruct (F' vals V) as (v1 & m1 & -> & V1 & G1). destruct (F C1 v1 V1) as (v & m & -> & Vv & G). exists v, (m ++ m1). rewrite app_assoc. split; auto. split; auto.
          intros Gv. destruct (G Gv) as (c & Ec & Mc). destruct G1 as (cs & Ecs & Mcs); [eapply good_ext; eauto|]. exists (c :: cs). split; [|constructor; auto].
          cbn [mapO]. rewrite (resolve_ext _ _ _ _ _ _ Ec), Ecs. auto.
        + intros v V G cs Hcs. destruct cs as [|c cs]; [inversion Hcs|]. assert (Mc : means e c) by (inversion Hcs; auto). assert (Mcs : Forall2 means es cs) by (inversion Hcs; auto).
          destruct (B C1 v V G c Mc) as (m & c' & V1 & Ec & Sc). destruct (B' _ V1) with (cs := cs) as (m1 & cs' & V2 & Ecs & Scs); [eapply good_ext; eauto|auto|].
          exists (m ++ m1), (c' :: cs'). rewrite app_assoc. split; auto. split; [|constructor; auto]. cbn [mapO]. rewrite (resolve_ext _ _ _ _ _ _ Ec), Ecs. auto. }
    specialize (G s S). destruct (lower_each root es s) as [[rs s1]|]; [|split; exact I]. split.
    + intros C vals V. destruct (G C) as [F _]. apply vals_ok_snoc in V as (v1 & x & -> & V & N). destruct x as [c|]; [|contradiction]. destruct (F v1 V) as (v & m & -> & Vv & Gv).
      exists v, (m ++ [VOp c]). rewrite app_assoc. split; auto. split; auto. intros Gd. destruct (Gv Gd) as (cs & Ecs & Mcs). exists c.
      split; [replace (length (ls_items s1)) with (length (v ++ m)) by apply V; apply resolve_last|]. apply means_concat. exists cs. split; auto.
      destruct N as (cs0 & E0 & Hn & Sc). simpl in E0. rewrite Ecs in E0. injection E0 as <-. auto.
    + intros C v V Gv c Mc. destruct (G C) as [_ B]. apply means_concat in Mc as (cs & Mcs & Hn & Sc). destruct (B v V Gv cs Mcs) as (m & cs' & V1 & Ecs & Scs).
      exists (m ++ [VOp c]), c. rewrite app_assoc. split; [|split; [|apply same_coll_refl]].
      * apply vals_ok_snoc. eexists _, _. split; [reflexivity|]. split; [exact V1|]. exists cs'. split; auto. split; [intros ->; inversion Scs; subst; auto|].
        eapply same_coll_trans; [exact Sc|]. apply agree_same_coll, concat_agree. clear -Scs. induction Scs; constructor; auto. apply agree_same_coll; auto.
      * replace (length (ls_items s1)) with (length (v ++ m)) by apply V1. apply resolve_last.
  - apply (One e (EArrange e) NArrange (fun a c => same_coll c a)); auto; [reflexivity|reflexivity|apply same_rel].
Qed.
End Means.
