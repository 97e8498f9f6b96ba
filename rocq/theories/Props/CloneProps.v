(** C62: a clone of a program means what the program means, and shows what every place inside it has. *)
From Verif Require Import Model.RenderM Spec.DdirSpec Spec.CloneSpec Proofs.DdirP Proofs.DdirMeansP Proofs.OptimizeP Proofs.DdirExP Proofs.LowerP Proofs.LowerScopeP Proofs.LowerTreeP Proofs.CloneAllP Proofs.LowerNestedP Spec.SourceSpec Proofs.LowerAcceptP Props.DdirProps Props.LowerProps.
Local Open Scope nat_scope.

(** A program whose references name what is there and whose nested scopes import from their parents is cloned
    without a panic, to one with the same imports and the same named exports, which has the same exports for all
    inputs, and no others. *)
Theorem c62_clone_means p : everywhere refs_ok p -> everywhere nested_imports p -> exists p', clone_identity p = Some p' /\
  sc_name p' = sc_name p /\ sc_imports p' = sc_imports p /\ map ex_name (sc_exports p') = map ex_name (sc_exports p) /\ everywhere refs_ok p' /\
  forall inputs traces exports, program_means p' inputs traces exports <-> program_means p inputs traces exports.
Proof.
  intros R N. set (out := empty (sc_name p) (sc_imports p)).
  destruct (clone_all p R N out (ident (length (sc_imports p))) [] (ident_length _)) as (n & rs & bs' & es' & vis & E & C & Eb & Ee & _ & _). simpl in C, Eb, Ee.
  exists (spliced p out n bs' es'). split; [unfold clone_identity, clone_into; change (MkScope (sc_name p) (sc_imports p) [] [] [] []) with out;
    change (map RImport (seq 0 (length (sc_imports p)))) with (ident (length (sc_imports p))); rewrite E; reflexivity|]. split; [reflexivity|]. split; [reflexivity|].
  pose proof (everywhere_here _ _ R) as Ro. pose proof (empty_refs (sc_name p) (sc_imports p)) as Ru.
  assert (Rim : forall r, In r (ident (length (sc_imports p))) -> ref_ok out (length (sc_items out)) r) by apply ident_refs.
  assert (Lim : length (ident (length (sc_imports p))) = length (sc_imports p)) by apply ident_length.
  assert (Rp : everywhere refs_ok (spliced p out n bs' es')) by (eapply spliced_everywhere; eauto; apply everywhere_here; auto).
  split; [|split; [exact Rp|]].
  - simpl. clear -Ee. revert es' Ee. induction (sc_exports p) as [|e es IH]; intros es' Ee; [injection Ee as <-; auto|]. apply mapO_cons_inv in Ee as (y & l & -> & E & M).
    simpl. rewrite (IH l M). unfold export_each in E. destruct (sref 0 0 _ (ex_value e)); [|discriminate]. injection E as <-. auto.
  - assert (G : forall ims exs, length ims = length (sc_imports p) -> scope_means 0 (spliced p out n bs' es') ims exs <-> scope_means 0 p ims exs).
    { intros ims exs Li. assert (Les := mapO_length' _ _ _ Ee). split.
      - intros M. pose proof (means_length _ _ _ _ M) as Le. simpl in Le. apply means_runs in M as (vars & vals & Rn & outs & Eo & Fo).
        assert (H : exists hs, mapO (resolve vals ims vars) (var_refs p out ++ rs) = Some hs).
        { apply mapO_total. intros r Hr. destruct (runs_resolve 0 _ ims vars vals (length (sc_items (spliced p out n bs' es'))) r Rn) as (c & Ec); auto; [|congruence].
          eapply visible_refs; eauto. }
        destruct H as (hs & Eh).
        apply (own_means p (sc_name p) (sc_imports p) n rs bs' es' Ro eq_refl C Eb Ee 0 ims exs hs Li); [congruence|]. apply reading_runs. exists vars, vals. split; [exact Rn|].
        exists (outs ++ hs). split; [|apply Forall2_app; [exact Fo|apply Forall2_same_refl]]. apply mapO_app_some; [|exact Eh]. rewrite mapO_map. exact Eo.
      - intros M. pose proof (means_length _ _ _ _ M) as Le.
        destruct (forall2_there (fun a h => site_means 0 p ims (fst a) (snd a) h) (sites p)) as (hs & Fh); [intros a Ha; eapply sites_there; eauto|].
        pose proof (proj2 (own_means p (sc_name p) (sc_imports p) n rs bs' es' Ro eq_refl C Eb Ee 0 ims exs hs Li Le) (conj M Fh)) as Mr.
        apply reading_runs in Mr as (vars & vals & Rn & outs & Eo & Fo). apply mapO_app_inv in Eo as (o1 & o2 & -> & E1 & E2). apply Forall2_split in Fo as (F1 & _);
          [|apply mapO_length' in E1; rewrite map_length in E1; congruence]. apply means_runs. exists vars, vals. split; [exact Rn|]. exists o1. split; [|exact F1]. rewrite mapO_map in E1. exact E1. }
    intros inputs traces exports. unfold program_means, root_imports. simpl. split; intros (ims & Ei & M); exists ims; (split; [exact Ei|]); apply G; auto; apply mapO_length' in Ei; auto.
Qed.
Print Assumptions c62_clone_means.

(** In any scope, whatever is there already, a clone adds the original's exports, read with the imports that
    were named for it, and one reference for each place of the original, at which is what the original has at
    that place.  Whatever else is read in the scope stays as it was. *)
Theorem c62_clone_into orig out import_map : everywhere refs_ok orig -> everywhere nested_imports orig -> everywhere refs_ok out ->
  Forall (fun b => bi_var b < length (sc_vars out)) (sc_binds out) -> length import_map = length (sc_imports orig) ->
  (forall r, In r import_map -> ref_ok out (length (sc_items out)) r) ->
  exists out' visible added, clone_into orig out import_map = Some (out', visible) /\
    sc_imports out' = sc_imports out /\ sc_exports out' = sc_exports out ++ added /\ map ex_name added = map ex_name (sc_exports orig) /\
    everywhere refs_ok out' /\ map (fun a => (ad_path (fst a), ad_site (fst a))) visible = sites orig /\
    (forall r, In r (map snd visible) -> ref_ok out' (length (sc_items out')) r) /\
    forall others, (forall r, In r others -> ref_ok out (length (sc_items out)) r) ->
    forall depth imports before exports shown, length imports = length (sc_imports out) -> length before = length others -> length exports = length (sc_exports orig) ->
      scope_means depth (reading out' (others ++ map ex_value added ++ map snd visible)) imports (before ++ exports ++ shown) <->
      exists ims, scope_means depth (reading out (others ++ import_map)) imports (before ++ ims) /\ scope_means depth orig ims exports /\
        Forall2 (fun a c => site_means depth orig ims (fst a) (snd a) c) (sites orig) shown.
Proof.
  intros R N Ru Bo L Rim. destruct (clone_all orig R N out import_map [] L) as (n & rs & bs' & es' & vis & E & C & Eb & Ee & V1 & V2).
  pose proof (everywhere_here _ _ R) as Ro. pose proof (everywhere_here _ _ Ru) as Ru'.
  exists (spliced orig out n bs' es'), vis, es'. split; [exact E|]. split; [reflexivity|]. split; [reflexivity|]. split; [|split; [|split; [|split]]].
  - clear -Ee. revert es' Ee. induction (sc_exports orig) as [|e es IH]; intros es' Ee; [injection Ee as <-; auto|]. apply mapO_cons_inv in Ee as (y & l & -> & E & M).
    simpl. rewrite (IH l M). unfold export_each in E. destruct (sref _ _ _ (ex_value e)); [|discriminate]. injection E as <-. auto.
  - eapply spliced_everywhere; eauto.
  - apply (f_equal (map (fun a => (ad_path a, ad_site a)))) in V1. rewrite !map_map in V1. rewrite V1. rewrite <- (map_id (sites orig)) at 2. apply map_ext. intros [p x]. reflexivity.
  - intros r. rewrite V2. intros Hr. eapply visible_refs; eauto.
  - intros others Ho depth imports before exports shown L1 L2 L3. rewrite V2. apply (splice_means orig out import_map n rs bs' es' Ro Ru' Rim L Bo C Eb Ee others Ho); auto.
Qed.
Print Assumptions c62_clone_into.

(** What is at a place is determined, and there is something at each if the program has a meaning. *)
Theorem c62_sites s depth imports exports a : everywhere refs_ok s -> everywhere nested_imports s -> length imports = length (sc_imports s) ->
  scope_means depth s imports exports -> In a (sites s) -> exists c, forall c', site_means depth s imports (fst a) (snd a) c' <-> same_coll c c'.
Proof.
  intros R N L M H. destruct (sites_there s R N depth imports exports L M a H) as (c & Hc). exists c. intros c'. split.
  - apply site_unique with (1 := Forall2_same_refl imports) (2 := Hc).
  - intros Q. eapply site_closed; [apply Forall2_same_refl|exact Q|exact Hc].
Qed.
Print Assumptions c62_sites.

(** *** An example: the paths of [c59_paths_means] *)
Lemma c62_paths_nested : everywhere nested_imports paths.
Proof.
  constructor.
  - intros c [H|[]]. injection H as <-. repeat constructor; eexists; reflexivity.
  - intros c [H|[]]. injection H as <-. constructor; intros c H; simpl in H; repeat (destruct H as [H|H]; [discriminate H|]); contradiction.
Qed.
Example c62_paths_means : exists p', clone_identity paths = Some p' /\ op_count p' = 15 /\ program_means p' c59_inputs (fun _ => None) [c59_out].
Proof.
  eexists. split; [vm_compute; reflexivity|]. split; [reflexivity|].
  destruct (c62_clone_means paths (proj1 c59_paths_ok) c62_paths_nested) as (p' & E & _ & _ & _ & _ & M). vm_compute in E. injection E as <-. apply M, c59_paths_means.
Qed.
(** Its variable, seen from outside the loop: what is reached at each round, with the round. *)
Example c62_paths_sites : sites paths = ([0], SiteVar 0) :: map (fun i => ([0], SiteOp i)) (seq 0 7).
Proof. reflexivity. Qed.
Example c62_paths_shown : site_means 0 paths [c59_edges; c59_roots] [0] (SiteVar 0)
  [((int 2, VTuple [int 1]), at0, 1%Z); ((int 3, VTuple [int 2]), at1, 1%Z)].
Proof.
  destruct c59_paths_means as (ims & Ei & M). injection Ei as <-. pose proof (proj1 c59_paths_ok) as R.
  apply means_runs in M as (vars & vals & Rn & _).
  destruct (child_runs 0 paths _ vars vals 0 paths_loop Rn (everywhere_here _ _ R) (everywhere_here _ _ c62_paths_nested) eq_refl) as (i' & e & o & _ & Ei & _).
  cbn [site_means]. exists paths_loop, i', c59_x, (the (at_times (left_time 1) (linear_of [LLiftIter] 1 c59_x))). split; [reflexivity|]. split; [eapply runs_reading; [exact Rn|exact Ei]|]. change (Some [c59_edges; c59_roots] = Some i') in Ei. assert (Q : i' = [c59_edges; c59_roots]) by congruence. rewrite Q. clear.
  split; [|split; [vm_compute; reflexivity|apply same_collb_sound; vm_compute; reflexivity]].
  apply reading_runs. exists [c59_x], c59_vals. split; [|exists [c59_x]; split; [reflexivity|repeat constructor]].
  split; [reflexivity|]. split; [split; [reflexivity|]|].
  - intros n it E. destruct n as [|[|[|[|[|[|[|n]]]]]]]; [..|destruct n; discriminate E]; injection E as <-; (eexists; split; [reflexivity|]).
    + exists [c59_roots; c59_x]. split; [reflexivity|]. split; [discriminate|apply same_coll_refl].
    + eexists. split; [reflexivity|apply same_coll_refl].
    + eexists. split; [reflexivity|apply same_coll_refl].
    + eexists _, _. split; [reflexivity|]. split; [reflexivity|apply same_coll_refl].
    + eexists. split; [reflexivity|apply same_coll_refl].
    + eexists. split; [reflexivity|apply same_coll_refl].
    + eexists. split; [reflexivity|apply same_coll_refl].
  - split; [split; [repeat constructor|apply NoDup_cons; [intros []|constructor]]|]. split; [|intros _; discriminate].
    intros v c E. destruct v as [|v]; [|destruct v; discriminate E]. injection E as <-. unfold bind_means. cbn [find bi_var sc_binds paths_loop Nat.eqb].
    exists (match nth_error c59_vals 3 with Some (VOp c) => c | _ => [] end), (the (at_times (feedback_time 1) (match nth_error c59_vals 3 with Some (VOp c) => c | _ => [] end))).
    split; [reflexivity|]. split; [reflexivity|]. apply same_collb_sound. vm_compute. reflexivity.
Qed.
(** A nested scope that reads an input itself is refused, and so is a use of a later item. *)
Example c62_refused : clone_identity (MkScope "root" [] [] [ISub (MkScope "s" [{| im_name := "c"; im_from := SInput 0 |}] [] [] [] [])] [] []) = None /\
  clone_identity (MkScope "root" [] [] [IOp (NArrange (RLocal 1)); IOp (NConcat [])] [] []) = None.
Proof. split; reflexivity. Qed.

(** In particular a program that was written down and lowered can be cloned, and means what was written. *)
Theorem c62_compiled stmts p : lower_tree stmts = Some p -> program_apart stmts -> exists p', clone_identity p = Some p' /\
  sc_imports p' = sc_imports p /\ map ex_name (sc_exports p') = map fst (exports_of stmts) /\
  forall inputs traces exports, program_means p' (fun n => Some (inputs n)) (fun n => Some (traces n)) exports <-> source_means inputs traces stmts exports.
Proof.
  intros E A. destruct (c62_clone_means p (lower_tree_refs _ _ E A) (tree_nested _ _ E)) as (p' & Ec & _ & Ei & En & _ & M). exists p'. split; [exact Ec|]. split; [exact Ei|].
  split; [rewrite En; apply lower_tree_names; auto|]. intros inputs traces exports. rewrite M. apply lower_tree_means; auto.
Qed.
Print Assumptions c62_compiled.
Example c62_compiled_paths : exists p p', lower_tree src_paths = Some p /\ clone_identity p = Some p' /\ program_means p' (fun n => Some (c61_inputs n)) (fun _ => Some []) [c59_out].
Proof.
  destruct c61_paths_lowered as (p & E & _). destruct (c62_compiled _ _ E (ok_apart _ _ c61_paths_ok)) as (p' & Ec & _ & _ & M). exists p, p'. split; [exact E|]. split; [exact Ec|].
  apply (M c61_inputs (fun _ => [])), c61_paths_means.
Qed.

(** An export that is not there becomes one in the clone: the places are exported behind those that are. *)
Theorem c62_dangling_refuted : exists p p' inputs exports, everywhere nested_imports p /\ clone_identity p = Some p' /\
  program_means p' inputs (fun _ => None) exports /\ ~ program_means p inputs (fun _ => None) exports.
Proof.
  set (inner := MkScope "s" [{| im_name := "c"; im_from := SParent (RImport 0) |}] [] [IOp (NArrange (RImport 0))] [] []).
  set (l := the (at_times (left_time 1) (linear_of [LLiftIter] 1 c59_in))).
  exists (MkScope "root" [{| im_name := "c"; im_from := SInput 0 |}] [] [ISub inner] [] [{| ex_name := "out"; ex_value := RChildExport 0 0 |}]). eexists.
  exists (fun _ => Some c59_in), [l]. split; [|split; [vm_compute; reflexivity|split]].
  - constructor.
    + intros c [H|[]]. injection H as <-. repeat constructor; eexists; reflexivity.
    + intros c [H|[]]. injection H as <-. constructor; intros c H; simpl in H; destruct H as [H|[]]; discriminate H.
  - exists [c59_in]. split; [reflexivity|]. apply scope_means_iff. exists [], [VSub [l]]. split; [reflexivity|]. split; [split; [reflexivity|]|split; [split; constructor|split; [|split; [intros H; exfalso; apply H; reflexivity|]]]].
    + intros n it E. destruct n as [|n]; [|destruct n; discriminate E]. injection E as <-. exists [c59_in], [linear_of [LLiftIter] 1 c59_in], [l]. split; [reflexivity|]. split; [reflexivity|].
      split; [|repeat constructor; exists l; split; [reflexivity|apply same_coll_refl]]. apply scope_means_iff. exists [], [VOp c59_in; VOp (linear_of [LLiftIter] 1 c59_in)].
      split; [reflexivity|]. split; [split; [reflexivity|]|split; [split; constructor|split; [|split; [intros H; exfalso; apply H; reflexivity|]]]].
      * intros n it E. destruct n as [|[|n]]; [..|destruct n; discriminate E]; injection E as <-; (eexists; split; [reflexivity|]); (eexists; split; [reflexivity|apply same_coll_refl]).
      * intros [|v] c E; discriminate E.
      * eexists. split; [reflexivity|]. repeat constructor.
    + intros [|v] c E; discriminate E.
    + eexists. split; [reflexivity|]. repeat constructor.
  - intros (ims & Ei & M). apply scope_means_iff in M as (vars & vals & _ & (_ & I) & _ & _ & _ & outs & Eo & _). destruct (I 0 _ eq_refl) as (i & e & o & Ev & _ & Mc & F).
    apply means_length in Mc. simpl in Mc. destruct e; [|discriminate]. inversion F; subst. apply mapO_cons_inv in Eo as (y & q & -> & E1 & _). destruct vals as [|x vals]; [discriminate|]. injection Ev as ->. discriminate.
Qed.
Print Assumptions c62_dangling_refuted.
