(** Lowering of scopes: the tree means what the text does. *)
From Verif Require Import Model.RenderM Model.LowerM Spec.DdirSpec Spec.SourceSpec Proofs.DdirP Proofs.DdirMeansP Proofs.OptimizeP Proofs.LowerP.
Local Open Scope nat_scope.

(** ** The loop *)
Record mono (s s' : LS) : Prop := {
  mo_ext : ext s s';
  mo_env : forall n r, lookup (ls_env s) n = Some r -> lookup (ls_env s') n = Some r;
  mo_children : forall n i, lookup (ls_children s) n = Some i -> lookup (ls_children s') n = Some i;
  mo_fields : forall n i, lookup (ls_fields s) n = Some i -> lookup (ls_fields s') n = Some i }.
Lemma mono_refl s : mono s s. Proof. split; auto. apply ext_refl. Qed.
Lemma mono_trans s1 s2 s3 : mono s1 s2 -> mono s2 s3 -> mono s1 s3.
Proof. intros [] []. split; auto. eapply ext_trans; eauto. Qed.
Lemma names_mono s s' : ext s s' -> same_names s s' -> mono s s'.
Proof. intros X [A B C]. split; [exact X|rewrite A|rewrite B|rewrite C]; auto. Qed.
Lemma mono_qualified s s' sc f r : mono s s' -> qualified_ref sc f s = Some r -> qualified_ref sc f s' = Some r.
Proof.
  intros [_ _ B C]. unfold qualified_ref. destruct (lookup (ls_children s) sc) as [i|] eqn:E1; [|discriminate]. destruct (lookup (ls_fields s) sc) as [fs|] eqn:E2; [|discriminate].
  rewrite (B _ _ E1), (C _ _ E2). auto.
Qed.
(** What is known of how a scope is lowered. *)
Record closure_sane (cl : closure) : Prop := {
  cs_names : forall penv wanted child, cl penv wanted = Some child -> map ex_name (sc_exports child) = wanted;
  cs_refs : forall penv wanted child r, cl penv wanted = Some child -> In r (item_refs (ISub child)) -> exists n, lookup penv n = Some r;
  cs_kid : forall penv wanted child, cl penv wanted = Some child -> everywhere refs_ok child }.
Definition work_sane (w : work) : Prop := match w with WLet _ => True | WScope cl => closure_sane cl end.
Definition fresh (s : LS) (n : string) : Prop := lookup (ls_env s) n = None /\ lookup (ls_children s) n = None /\ lookup (ls_fields s) n = None.
Lemma lookup_cons {A} (m : list (string * A)) k v n : lookup ((k, v) :: m) n = if String.eqb k n then Some v else lookup m n. Proof. reflexivity. Qed.
Lemma lookup_fresh {A} (m : list (string * A)) k v n x : lookup m k = None -> lookup m n = Some x -> lookup ((k, v) :: m) n = Some x.
Proof. intros H E. rewrite lookup_cons. destruct (String.eqb_spec k n); [subst; congruence|auto]. Qed.
Lemma position_nth f fs j : position f fs = Some j -> nth_error fs j = Some f.
Proof.
  revert j. induction fs as [|g fs IH]; intros j; simpl; [discriminate|]. destruct (String.eqb_spec g f); [intros [= <-]; subst; auto|].
  destruct (position f fs) as [k|]; [|discriminate]. intros [= <-]. simpl. auto.
Qed.
Lemma position_none f fs : position f fs = None -> ~ In f fs.
Proof.
  induction fs as [|g fs IH]; simpl; [auto|]. destruct (String.eqb_spec g f); [discriminate|]. destruct (position f fs); [discriminate|]. intros _ [H|H]; auto. apply IH; auto.
Qed.

Lemma do_work_sane nv root body name w s s' : do_work root body name w s = Some s' -> sane nv s -> work_sane w -> fresh s name ->
  mono s s' /\ sane nv s' /\ (forall n, n <> name -> lookup (ls_env s') n = lookup (ls_env s) n /\ (fresh s n -> fresh s' n)).
Proof.
  intros E S W (F1 & F2 & F3). destruct w as [e|cl]; simpl in E.
  - pose proof (lower_expr_good nv root e s S) as G. destruct (lower_expr root e s) as [[r s1]|]; [|discriminate]. injection E as <-. destruct G as (X & N & S1 & R).
    set (s' := ls_with_env _ _). assert (X' : ext s1 s') by (split; exists []; rewrite app_nil_r; auto). split; [|split].
    + split; [eapply ext_trans; eauto| | |]; simpl; rewrite ?(sn_env _ _ N), ?(sn_children _ _ N), ?(sn_fields _ _ N); auto. intros n r'. apply lookup_fresh; auto.
    + split; try apply S1. intros n r'. simpl. destruct (String.eqb name n); [intros [= <-]; auto|apply S1].
    + intros n Hn. unfold fresh. simpl. apply not_eq_sym, String.eqb_neq in Hn. rewrite Hn, (sn_env _ _ N), (sn_children _ _ N), (sn_fields _ _ N). auto.
  - set (wanted := qualified_fields body name) in *. destruct (cl (ls_env s) wanted) as [child|] eqn:Ec; [|discriminate]. injection E as <-.
    destruct (push_sane nv s (ISub child) S) as (X & N & S1).
    { intros r Hr. destruct (cs_refs _ W _ _ _ _ Ec Hr) as (n & En). eapply sa_env; eauto. }
    { eapply cs_kid; eauto. }
    set (s' := {| ls_items := _ |}). assert (X' : ext s s') by (destruct X as [XA XB]; split; [exact XA|exact XB]). split; [|split].
    + split; auto; simpl; intros n i; apply lookup_fresh; auto.
    + split; try apply S1. intros sc f r. unfold qualified_ref. simpl. destruct (String.eqb_spec name sc).
      * destruct (position f wanted) as [j|] eqn:Ej; [|discriminate]. intros [= <-]. unfold here. simpl. rewrite app_length. simpl. split; [lia|]. exists child.
        rewrite nth_error_app2, Nat.sub_diag by lia. split; auto. rewrite <- (map_length ex_name), (cs_names _ W _ _ _ Ec). apply nth_error_Some. rewrite (position_nth _ _ _ Ej). discriminate.
      * intros Q. apply (sa_fields _ _ S1 sc f r Q).
    + intros n Hn. unfold fresh. simpl. apply not_eq_sym, String.eqb_neq in Hn. rewrite Hn. auto.
Qed.

Lemma take_ready_split {W} deps (pending : list (string * W)) n w rest : take_ready deps pending = Some (n, w, rest) -> Permutation pending ((n, w) :: rest).
Proof.
  revert n w rest. induction pending as [|[m x] pending IH]; intros n w rest; simpl; [discriminate|]. destruct (lookup deps m) as [[|d ds]|]; [| |discriminate].
  - intros [= <- <- <-]. apply Permutation_refl.
  - destruct (take_ready deps pending) as [[[n' w'] rest']|]; [|discriminate]. intros [= <- <- <-]. eapply perm_trans; [apply perm_skip, IH; reflexivity|]. apply perm_swap.
Qed.
Lemma loop_sane nv root body fuel : forall pending deps s s', lower_pending root body fuel pending deps s = Some s' -> sane nv s ->
  (forall n w, In (n, w) pending -> work_sane w /\ fresh s n) -> NoDup (map fst pending) ->
  mono s s' /\ sane nv s' /\ (forall n, ~ In n (map fst pending) -> lookup (ls_env s') n = lookup (ls_env s) n /\ (fresh s n -> fresh s' n)).
Proof.
  induction fuel as [|fuel IH]; intros pending deps s s'.
  - destruct pending; simpl; [|discriminate]. intros [= <-] S _ _. split; [apply mono_refl|]. split; auto.
  - destruct pending as [|p0 pending0] eqn:Ep; [simpl; intros [= <-] S _ _; split; [apply mono_refl|]; split; auto|]. rewrite <- Ep.
    intros E S H ND.
    assert (E' : exists name w rest s1, take_ready deps pending = Some (name, w, rest) /\ do_work root body name w s = Some s1 /\ lower_pending root body fuel rest (done_with name deps) s1 = Some s').
    { simpl in E. rewrite Ep in E at 1. destruct (take_ready deps pending) as [[[name w] rest]|] eqn:Et; [|discriminate]. destruct (do_work root body name w s) as [s1|] eqn:Ed; [|discriminate]. exists name, w, rest, s1. auto. }
    clear E. destruct E' as (name & w & rest & s1 & Et & Ed & El). apply take_ready_split in Et.
    assert (Hin : In (name, w) pending) by (apply (Permutation_in _ (Permutation_sym Et)); left; auto). destruct (H _ _ Hin) as (W & F).
    destruct (do_work_sane nv _ _ _ _ _ _ Ed S W F) as (M & S1 & K).
    assert (ND' : NoDup (map fst ((name, w) :: rest))) by (eapply Permutation_NoDup; [apply Permutation_map; exact Et|exact ND]). simpl in ND'. apply NoDup_cons_iff in ND' as (Hx & ND'').
    destruct (IH rest _ s1 s' El S1) as (M' & S' & K'); auto.
    { intros n w' Hi. assert (Hi' : In (n, w') pending) by (apply (Permutation_in _ (Permutation_sym Et)); right; auto). destruct (H _ _ Hi') as (W' & F'). split; auto. apply K; auto.
      intros ->. apply Hx. apply (in_map fst) in Hi. exact Hi. }
    split; [eapply mono_trans; eauto|]. split; auto. intros n Hn.
    assert (Hn' : n <> name /\ ~ In n (map fst rest)).
    { split; [intros ->; apply Hn, (in_map fst _ _ Hin)|]. intros Hi. apply Hn. apply (Permutation_in n (Permutation_sym (Permutation_map fst Et))). right; auto. }
    destruct Hn' as (H1 & H2). destruct (K n H1) as (K1 & K2). destruct (K' n H2) as (K3 & K4). split; [congruence|auto].
Qed.

(** ** What the loop's items mean *)
Lemma vals_prefix depth ims vars its more vals : vals_ok depth ims vars (its ++ more) vals -> exists v m, vals = v ++ m /\ vals_ok depth ims vars its v.
Proof.
  revert vals. induction more as [|x more IH] using rev_ind; intros vals V; [rewrite app_nil_r in V; exists vals, []; rewrite app_nil_r; auto|].
  rewrite app_assoc in V. apply vals_ok_snoc in V as (v & y & -> & V & _). destruct (IH v V) as (v0 & m & -> & V0). exists v0, (m ++ [y]). rewrite app_assoc. auto.
Qed.
Lemma resolve_back nv s v m ims vars r c : ref_in nv s (here s) r -> length v = here s -> resolve (v ++ m) ims vars r = Some c -> resolve v ims vars r = Some c.
Proof. intros R L. destruct r as [i|i|i|i j]; simpl in *; auto; rewrite nth_error_app1; auto; lia. Qed.
Lemma same_left depth a b la : at_times (left_time (S depth)) a = Some la -> same_coll a b -> exists lb, at_times (left_time (S depth)) b = Some lb /\ same_coll la lb.
Proof.
  intros E H. destruct (at_times_total (left_time (S depth)) b) as (lb & Eb); [apply left_time_total|]. exists lb. split; auto.
  apply agree_same_coll. eapply (at_times_agree (fun _ => True) (fun _ => True)); [|apply agree_same_coll; exact H|exact E|exact Eb]. intros; exact I.
Qed.
Lemma same_next depth a b la : at_times (feedback_time (S depth)) a = Some la -> same_coll a b -> exists lb, at_times (feedback_time (S depth)) b = Some lb /\ same_coll la lb.
Proof.
  intros E H. destruct (at_times_total (feedback_time (S depth)) b) as (lb & Eb). { intros t. destruct (feedback_time_spec depth t) as (t' & E' & _). congruence. } exists lb. split; auto.
  apply agree_same_coll. eapply (at_times_agree (fun _ => True) (fun _ => True)); [|apply agree_same_coll; exact H|exact E|exact Eb]. intros; exact I.
Qed.

Section LoopMeans.
Variables (inputs : nat -> coll) (traces : string -> coll) (depth : nat) (ims vars : list coll).
Variables (rho : string -> option coll) (sub : string -> string -> option coll) (nv : nat) (root : bool) (body : list Stmt).
Local Notation look v := (resolve v ims vars).
Local Notation means := (expr_means inputs traces depth rho sub).
Local Notation covers := (covers inputs traces ims).
Local Notation good := (good ims vars rho sub).
Local Notation vals_ok := (vals_ok depth ims vars).

Lemma good_back st s s3 v m : mono s s3 -> sane nv s -> length v = here s -> good st s3 (v ++ m) -> good st s v.
Proof.
  intros M S L [G1 G2]. split.
  - intros n r E. destruct (G1 n r (mo_env _ _ M _ _ E)) as (c & Ec & H). exists c. split; auto. eapply resolve_back; eauto. eapply sa_env; eauto.
  - intros sc f r E. destruct (G2 sc f r (mono_qualified _ _ _ _ _ M E)) as (c & Ec & H). exists c. split; auto. eapply resolve_back; eauto. eapply sa_fields; eauto.
Qed.
Lemma expr_use e s r s' s3 vals : lower_expr root e s = Some (r, s') -> sane nv s -> mono s s3 -> ext s' s3 -> covers (ls_imports s3) -> vals_ok (ls_items s3) vals -> good true s3 vals ->
  exists c, look vals r = Some c /\ means e c.
Proof.
  intros E S M X C V G. pose proof X as [(mi & Ei) _]. rewrite Ei in V. destruct (vals_prefix _ _ _ _ _ _ V) as (v' & m' & -> & V').
  destruct (expr_fwd_bwd inputs traces depth ims vars rho sub nv root e s S) as [F _]. rewrite E in F.
  destruct (F (covers_ext _ _ _ _ _ X C) v' V') as (v & m & -> & Vv & Gc). destruct Gc as (c & Ec & Mc).
  - rewrite <- app_assoc in G. eapply good_back; eauto. apply Vv.
  - exists c. split; auto. apply resolve_ext; auto.
Qed.
Definition work_reads (s3 : LS) (vals : list rvalue) (n : string) (w : work) : Prop :=
  match w with
  | WLet e => exists r c, lookup (ls_env s3) n = Some r /\ look vals r = Some c /\ means e c
  | WScope cl => exists penv child i outs v, let wanted := qualified_fields body n in
      cl penv wanted = Some child /\ (forall m r, lookup penv m = Some r -> stands_for true (look v r) (rho m)) /\
      lookup (ls_children s3) n = Some i /\ lookup (ls_fields s3) n = Some wanted /\ nth_error vals i = Some (VSub outs) /\ item_new depth (look v) (ISub child) (VSub outs)
  end.
Lemma work_fwd name w s s1 s3 vals : do_work root body name w s = Some s1 -> sane nv s -> work_sane w -> fresh s name -> mono s1 s3 -> covers (ls_imports s3) -> vals_ok (ls_items s3) vals ->
  good true s3 vals -> work_reads s3 vals name w.
Proof.
  intros E S W F M3 C V G. destruct (do_work_sane nv _ _ _ _ _ _ E S W F) as (M1 & S1 & _). pose proof (mono_trans _ _ _ M1 M3) as M.
  destruct w as [e|cl]; simpl in E.
  - destruct (lower_expr root e s) as [[r s']|] eqn:El; [|discriminate]. injection E as <-.
    destruct (expr_use e s r s' s3 vals El S M) as (c & Ec & Mc); auto. { destruct (mo_ext _ _ M3) as [A B]. split; auto. }
    exists r, c. split; auto. apply (mo_env _ _ M3). simpl. rewrite String.eqb_refl. auto.
  - destruct (cl (ls_env s) (qualified_fields body name)) as [child|] eqn:Ec; [|discriminate]. injection E as <-.
    pose proof (mo_ext _ _ M3) as [(mi & Ei) _]. simpl in Ei. rewrite Ei in V. destruct (vals_prefix _ _ _ _ _ _ V) as (v1 & m1 & -> & V1).
    apply vals_ok_snoc in V1 as (v & x & -> & Vv & N). destruct x as [|outs]; [contradiction|].
    exists (ls_env s), child, (length (ls_items s)), outs, v. split; auto. split; [|split; [|split; [|split]]]; auto.
    + rewrite <- app_assoc in G. apply (good_back true s s3 v) in G; auto; [|apply Vv]. apply G.
    + apply (mo_children _ _ M3). simpl. rewrite String.eqb_refl. auto.
    + apply (mo_fields _ _ M3). simpl. rewrite String.eqb_refl. auto.
    + replace (length (ls_items s)) with (length v) by apply Vv. rewrite nth_error_app1 by (rewrite app_length; simpl; lia). rewrite nth_error_app2, Nat.sub_diag by lia. auto.
Qed.
Lemma loop_fwd fuel : forall pending deps s s' s3 vals, lower_pending root body fuel pending deps s = Some s' -> sane nv s ->
  (forall n w, In (n, w) pending -> work_sane w /\ fresh s n) -> NoDup (map fst pending) -> mono s' s3 -> covers (ls_imports s3) -> vals_ok (ls_items s3) vals -> good true s3 vals ->
  forall n w, In (n, w) pending -> work_reads s3 vals n w.
Proof.
  induction fuel as [|fuel IH]; intros pending deps s s' s3 vals; (destruct pending as [|p0 pending0] eqn:Ep; [intros _ _ _ _ _ _ _ _ n w []|]); [discriminate|]. rewrite <- Ep.
  intros E S H ND M3 C V G.
  assert (E' : exists name w rest s1, take_ready deps pending = Some (name, w, rest) /\ do_work root body name w s = Some s1 /\ lower_pending root body fuel rest (done_with name deps) s1 = Some s').
  { simpl in E. rewrite Ep in E at 1. destruct (take_ready deps pending) as [[[name w] rest]|] eqn:Et; [|discriminate]. destruct (do_work root body name w s) as [s1|] eqn:Ed; [|discriminate]. exists name, w, rest, s1. auto. }
  clear E. destruct E' as (name & w & rest & s1 & Et & Ed & El). apply take_ready_split in Et.
  assert (Hin : In (name, w) pending) by (apply (Permutation_in _ (Permutation_sym Et)); left; auto). destruct (H _ _ Hin) as (W & F).
  destruct (do_work_sane nv _ _ _ _ _ _ Ed S W F) as (M & S1 & K).
  assert (ND' : NoDup (map fst ((name, w) :: rest))) by (eapply Permutation_NoDup; [apply Permutation_map; exact Et|exact ND]). simpl in ND'. apply NoDup_cons_iff in ND' as (Hx & ND'').
  assert (H' : forall n w', In (n, w') rest -> work_sane w' /\ fresh s1 n).
  { intros n w' Hi. assert (Hi' : In (n, w') pending) by (apply (Permutation_in _ (Permutation_sym Et)); right; auto). destruct (H _ _ Hi') as (W' & F'). split; auto. apply K; auto.
    intros ->. apply Hx. apply (in_map fst) in Hi. exact Hi. }
  destruct (loop_sane nv root body fuel rest _ s1 s' El S1 H' ND'') as (M' & S' & _).
  intros n w' Hi. apply (Permutation_in _ Et) in Hi as [[= <- <-]|Hi].
  - eapply work_fwd; eauto. eapply mono_trans; eauto.
  - eapply IH; eauto.
Qed.

Definition work_has (n : string) (w : work) : Prop :=
  match w with
  | WLet e => exists c, rho n = Some c /\ means e c
  | WScope cl => forall penv child look', cl penv (qualified_fields body n) = Some child -> (forall m r, lookup penv m = Some r -> stands_for false (look' r) (rho m)) ->
      exists outs, item_new depth look' (ISub child) (VSub outs) /\ forall f j, position f (qualified_fields body n) = Some j -> stands_for false (nth_error outs j) (sub n f)
  end.
Lemma work_bwd name w s s1 v : do_work root body name w s = Some s1 -> sane nv s -> covers (ls_imports s1) -> work_has name w -> vals_ok (ls_items s) v -> good false s v ->
  exists more, vals_ok (ls_items s1) (v ++ more) /\ good false s1 (v ++ more).
Proof.
  intros E S C H V G. destruct w as [e|cl]; simpl in E.
  - destruct (expr_fwd_bwd inputs traces depth ims vars rho sub nv root e s S) as [_ B]. pose proof (lower_expr_good nv root e s S) as Gd.
    destruct (lower_expr root e s) as [[r s']|]; [|discriminate]. injection E as <-. destruct Gd as (X & N & S1 & R). destruct H as (c & Hc & Mc).
    destruct (B C v V G c Mc) as (more & c' & V1 & Ec & Sc). exists more. split; auto. pose proof (good_ext ims vars rho sub false s s' v more N G) as [G1 G2]. split.
    + intros n r' En. simpl in En. destruct (String.eqb_spec name n); [|apply G1; auto]. injection En as <-. subst n. exists c'. rewrite Hc. split; auto. apply same_coll_sym; auto.
    + exact G2.
  - destruct (cl (ls_env s) (qualified_fields body name)) as [child|] eqn:Ec; [|discriminate]. injection E as <-.
    destruct (H _ _ (look v) Ec (go_env _ _ _ _ _ _ _ G)) as (outs & N & Hf). exists [VSub outs]. split; [apply vals_ok_snoc; eauto|].
    pose proof (good_ext ims vars rho sub false s s v [VSub outs] (names_refl s) G) as [G1 G2]. split.
    + exact G1.
    + intros sc f r. unfold qualified_ref. simpl. destruct (String.eqb_spec name sc); [|apply G2]. subst sc. destruct (position f (qualified_fields body name)) as [j|] eqn:Ej; [|discriminate].
      intros [= <-]. simpl. replace (length (ls_items s)) with (length v) by apply V. rewrite nth_error_app2, Nat.sub_diag by lia. simpl. auto.
Qed.
Lemma loop_bwd fuel : forall pending deps s s' v, lower_pending root body fuel pending deps s = Some s' -> sane nv s ->
  (forall n w, In (n, w) pending -> work_sane w /\ fresh s n) -> NoDup (map fst pending) -> covers (ls_imports s') -> (forall n w, In (n, w) pending -> work_has n w) ->
  vals_ok (ls_items s) v -> good false s v -> exists more, vals_ok (ls_items s') (v ++ more) /\ good false s' (v ++ more).
Proof.
  induction fuel as [|fuel IH]; intros pending deps s s' v; (destruct pending as [|p0 pending0] eqn:Ep; [simpl; intros [= <-] _ _ _ _ _ V G; exists []; rewrite app_nil_r; auto|]); [discriminate|]. rewrite <- Ep.
  intros E S H ND C Hw V G.
  assert (E' : exists name w rest s1, take_ready deps pending = Some (name, w, rest) /\ do_work root body name w s = Some s1 /\ lower_pending root body fuel rest (done_with name deps) s1 = Some s').
  { simpl in E. rewrite Ep in E at 1. destruct (take_ready deps pending) as [[[name w] rest]|] eqn:Et; [|discriminate]. destruct (do_work root body name w s) as [s1|] eqn:Ed; [|discriminate]. exists name, w, rest, s1. auto. }
  clear E. destruct E' as (name & w & rest & s1 & Et & Ed & El). apply take_ready_split in Et.
  assert (Hin : In (name, w) pending) by (apply (Permutation_in _ (Permutation_sym Et)); left; auto). destruct (H _ _ Hin) as (W & F).
  destruct (do_work_sane nv _ _ _ _ _ _ Ed S W F) as (M & S1 & K).
  assert (ND' : NoDup (map fst ((name, w) :: rest))) by (eapply Permutation_NoDup; [apply Permutation_map; exact Et|exact ND]). simpl in ND'. apply NoDup_cons_iff in ND' as (Hx & ND'').
  assert (H' : forall n w', In (n, w') rest -> work_sane w' /\ fresh s1 n).
  { intros n w' Hi. assert (Hi' : In (n, w') pending) by (apply (Permutation_in _ (Permutation_sym Et)); right; auto). destruct (H _ _ Hi') as (W' & F'). split; auto. apply K; auto.
    intros ->. apply Hx. apply (in_map fst) in Hi. exact Hi. }
  destruct (loop_sane nv root body fuel rest _ s1 s' El S1 H' ND'') as (M' & S' & _).
  destruct (work_bwd name w s s1 v Ed S) as (m1 & V1 & G1); auto. { eapply covers_ext; [apply M'|exact C]. }
  destruct (IH rest _ s1 s' (v ++ m1) El S1 H' ND'' C) as (m2 & V2 & G2); auto. { intros n w' Hi. apply Hw, (Permutation_in _ (Permutation_sym Et)). right; auto. }
  exists (m1 ++ m2). rewrite app_assoc. auto.
Qed.

(** Binds, and the exports of a program. *)
Lemma binds_sane all vs : forall s bs s', lower_binds root all vs s = Some (bs, s') -> sane nv s ->
  ext s s' /\ same_names s s' /\ sane nv s' /\ (forall b, In b bs -> ref_in nv s' (here s') (bi_value b)) /\
  Forall2 (fun ne b => var_id all 0 (fst ne) = Some (bi_var b)) vs bs.
Proof.
  induction vs as [|[n e] vs IH]; intros s bs s'; simpl.
  - intros [= <- <-] S. split; [apply ext_refl|]. split; [apply names_refl|]. split; auto. split; auto. intros b [].
  - intros E S. pose proof (lower_expr_good nv root e s S) as G. destruct (lower_expr root e s) as [[r s1]|]; [|discriminate]. destruct G as (X & N & S1 & R).
    destruct (var_id all 0 n) as [i|] eqn:Ev; [|discriminate]. destruct (lower_binds root all vs s1) as [[bs1 s2]|] eqn:Eb; [|discriminate]. injection E as <- <-.
    destruct (IH _ _ _ Eb S1) as (X' & N' & S2 & R' & F). split; [eapply ext_trans; eauto|]. split; [eapply names_trans; eauto|]. split; auto. split; [|constructor; auto].
    intros b [<-|Hb]; auto. simpl. eapply ref_in_ext; [exact X'|apply ext_here, X'|]. auto.
Qed.
Lemma binds_fwd all vs : forall s bs s' s3 vals, lower_binds root all vs s = Some (bs, s') -> sane nv s -> mono s s3 -> ext s' s3 -> covers (ls_imports s3) -> vals_ok (ls_items s3) vals ->
  good true s3 vals -> Forall2 (fun ne b => exists c, look vals (bi_value b) = Some c /\ means (snd ne) c) vs bs.
Proof.
  induction vs as [|[n e] vs IH]; intros s bs s' s3 vals; simpl.
  - intros [= <- <-]; constructor.
  - intros E S M X C V G. pose proof (lower_expr_good nv root e s S) as Gd. destruct (lower_expr root e s) as [[r s1]|] eqn:El; [|discriminate]. destruct Gd as (X1 & N1 & S1 & R).
    destruct (var_id all 0 n) as [i|] eqn:Ev; [|discriminate]. destruct (lower_binds root all vs s1) as [[bs1 s2]|] eqn:Eb; [|discriminate]. injection E as <- <-.
    destruct (binds_sane all vs _ _ _ Eb S1) as (X2 & N2 & _).
    assert (M1 : mono s1 s3). { destruct M. destruct N1 as [A B D]. split; [eapply ext_trans; eauto|rewrite A; auto|rewrite B; auto|rewrite D; auto]. }
    constructor; [|eapply IH; eauto]. simpl. eapply (expr_use e s r s1 s3); eauto. eapply ext_trans; eauto.
Qed.
Lemma binds_bwd all vs : forall s bs s' v, lower_binds root all vs s = Some (bs, s') -> sane nv s -> covers (ls_imports s') -> vals_ok (ls_items s) v -> good false s v ->
  forall srcs, Forall2 (fun ne c => means (snd ne) c) vs srcs ->
  exists more, vals_ok (ls_items s') (v ++ more) /\ good false s' (v ++ more) /\ Forall2 (fun src b => exists c, look (v ++ more) (bi_value b) = Some c /\ same_coll src c) srcs bs.
Proof.
  induction vs as [|[n e] vs IH]; intros s bs s' v; simpl.
  - intros [= <- <-] S C V G srcs H. inversion H. exists []. rewrite app_nil_r. auto.
  - intros E S C V G srcs H. pose proof (lower_expr_good nv root e s S) as Gd. destruct (expr_fwd_bwd inputs traces depth ims vars rho sub nv root e s S) as [_ B].
    destruct (lower_expr root e s) as [[r s1]|] eqn:El; [|discriminate]. destruct Gd as (X1 & N1 & S1 & R).
    destruct (var_id all 0 n) as [i|] eqn:Ev; [|discriminate]. destruct (lower_binds root all vs s1) as [[bs1 s2]|] eqn:Eb; [|discriminate]. injection E as <- <-.
    destruct (binds_sane all vs _ _ _ Eb S1) as (X2 & N2 & _). destruct srcs as [|src srcs]; [inversion H|].
    assert (Hs : means e src) by (inversion H; auto). assert (Hss : Forall2 (fun ne c => means (snd ne) c) vs srcs) by (inversion H; auto).
    destruct (B (covers_ext _ _ _ _ _ X2 C) v V G src Hs) as (m1 & c & V1 & Ec & Sc).
    destruct (IH s1 bs1 s2 (v ++ m1) Eb S1 C V1) with (srcs := srcs) as (m2 & V2 & G2 & F); auto; [eapply good_ext; eauto|].
    exists (m1 ++ m2). rewrite app_assoc. split; auto. split; auto. constructor; auto. simpl. exists c. split; auto. apply resolve_ext; auto.
Qed.
Lemma exports_sane es : forall s xs s', lower_exports root es s = Some (xs, s') -> sane nv s ->
  ext s s' /\ same_names s s' /\ sane nv s' /\ (forall x, In x xs -> ref_in nv s' (here s') (ex_value x)) /\ map ex_name xs = map fst es.
Proof.
  induction es as [|[n e] es IH]; intros s bs s'; simpl.
  - intros [= <- <-] S. split; [apply ext_refl|]. split; [apply names_refl|]. split; auto. split; auto. intros b [].
  - intros E S. pose proof (lower_expr_good nv root e s S) as G. destruct (lower_expr root e s) as [[r s1]|]; [|discriminate]. destruct G as (X & N & S1 & R).
    destruct (lower_exports root es s1) as [[bs1 s2]|] eqn:Eb; [|discriminate]. injection E as <- <-.
    destruct (IH _ _ _ Eb S1) as (X' & N' & S2 & R' & F). split; [eapply ext_trans; eauto|]. split; [eapply names_trans; eauto|]. split; auto. split; [|simpl; f_equal; auto].
    intros b [<-|Hb]; auto. simpl. eapply ref_in_ext; [exact X'|apply ext_here, X'|]. auto.
Qed.
Lemma exports_fwd es : forall s bs s' s3 vals, lower_exports root es s = Some (bs, s') -> sane nv s -> mono s s3 -> ext s' s3 -> covers (ls_imports s3) -> vals_ok (ls_items s3) vals ->
  good true s3 vals -> Forall2 (fun ne b => exists c, look vals (ex_value b) = Some c /\ means (snd ne) c) es bs.
Proof.
  induction es as [|[n e] es IH]; intros s bs s' s3 vals; simpl.
  - intros [= <- <-]; constructor.
  - intros E S M X C V G. pose proof (lower_expr_good nv root e s S) as Gd. destruct (lower_expr root e s) as [[r s1]|] eqn:El; [|discriminate]. destruct Gd as (X1 & N1 & S1 & R).
    destruct (lower_exports root es s1) as [[bs1 s2]|] eqn:Eb; [|discriminate]. injection E as <- <-.
    destruct (exports_sane es _ _ _ Eb S1) as (X2 & N2 & _).
    assert (M1 : mono s1 s3). { destruct M. destruct N1 as [A B D]. split; [eapply ext_trans; eauto|rewrite A; auto|rewrite B; auto|rewrite D; auto]. }
    constructor; [|eapply IH; eauto]. simpl. eapply (expr_use e s r s1 s3); eauto. eapply ext_trans; eauto.
Qed.
Lemma exports_bwd es : forall s bs s' v, lower_exports root es s = Some (bs, s') -> sane nv s -> covers (ls_imports s') -> vals_ok (ls_items s) v -> good false s v ->
  forall srcs, Forall2 (fun ne c => means (snd ne) c) es srcs ->
  exists more, vals_ok (ls_items s') (v ++ more) /\ Forall2 (fun src b => exists c, look (v ++ more) (ex_value b) = Some c /\ same_coll src c) srcs bs.
Proof.
  induction es as [|[n e] es IH]; intros s bs s' v; simpl.
  - intros [= <- <-] S C V G srcs H. inversion H. exists []. rewrite app_nil_r. auto.
  - intros E S C V G srcs H. pose proof (lower_expr_good nv root e s S) as Gd. destruct (expr_fwd_bwd inputs traces depth ims vars rho sub nv root e s S) as [_ B].
    destruct (lower_expr root e s) as [[r s1]|] eqn:El; [|discriminate]. destruct Gd as (X1 & N1 & S1 & R).
    destruct (lower_exports root es s1) as [[bs1 s2]|] eqn:Eb; [|discriminate]. injection E as <- <-.
    destruct (exports_sane es _ _ _ Eb S1) as (X2 & N2 & _). destruct srcs as [|src srcs]; [inversion H|].
    assert (Hs : means e src) by (inversion H; auto). assert (Hss : Forall2 (fun ne c => means (snd ne) c) es srcs) by (inversion H; auto).
    destruct (B (covers_ext _ _ _ _ _ X2 C) v V G src Hs) as (m1 & c & V1 & Ec & Sc).
    destruct (IH s1 bs1 s2 (v ++ m1) Eb S1 C V1) with (srcs := srcs) as (m2 & V2 & F); auto; [eapply good_ext; eauto|].
    exists (m1 ++ m2). rewrite app_assoc. split; auto. constructor; auto. simpl. exists c. split; auto. apply resolve_ext; auto.
Qed.
End LoopMeans.
