(** C61: a program's text is lowered to a tree of scopes that means what the text means, in whatever order its
    statements come, and is refused exactly if it makes no sense. *)
From Verif Require Import Model.RenderM Model.LowerM Spec.DdirSpec Spec.SourceSpec Proofs.DdirP Proofs.DdirMeansP Proofs.OptimizeP Proofs.OptimizeAllP Proofs.DdirSnapP Proofs.DdirExP
  Proofs.LowerP Proofs.LowerScopeP Proofs.LowerTreeP Proofs.LowerAcceptP Proofs.LowerRejectP Proofs.LowerPromptP Props.DdirProps.
Local Open Scope nat_scope.

(** ** C61 *)
(** The tree has the exports the text has, and no others, for all inputs and traces. *)
Theorem c61_lower_means stmts p : lower_tree stmts = Some p -> program_apart stmts ->
  forall inputs traces exports, program_means p (fun n => Some (inputs n)) (fun t => Some (traces t)) exports <-> source_means inputs traces stmts exports.
Proof. intros E A inputs traces exports. apply lower_tree_means; auto. Qed.
Print Assumptions c61_lower_means.
Theorem c61_lower_refs stmts p : lower_tree stmts = Some p -> program_apart stmts -> everywhere refs_ok p /\ map ex_name (sc_exports p) = map fst (exports_of stmts).
Proof. intros E A. split; [eapply lower_tree_refs; eauto|apply lower_tree_names; auto]. Qed.
Print Assumptions c61_lower_refs.

(** With names defined once and exports at the root, lowering succeeds for the programs that make sense and
    panics for the others: names not there, inputs inside scopes, lets and scopes that use each other. *)
Theorem c61_accepts_iff stmts : program_apart stmts -> exports_at_root stmts -> ((exists p, lower_tree stmts = Some p) <-> body_ok true stmts).
Proof. intros A X. split; [intros (p & E); eapply tree_back; eauto|apply tree_accepted]. Qed.
Print Assumptions c61_accepts_iff.

(** The order of statements does not matter, but that exports are numbered in theirs. *)
Theorem c61_order stmts stmts' p : program_apart stmts -> exports_at_root stmts -> lower_tree stmts = Some p -> Permutation stmts stmts' -> exports_of stmts' = exports_of stmts ->
  exists p', lower_tree stmts' = Some p' /\
    forall inputs traces exports, program_means p (fun n => Some (inputs n)) (fun t => Some (traces t)) exports <-> program_means p' (fun n => Some (inputs n)) (fun t => Some (traces t)) exports.
Proof.
  intros A X E P Ex. pose proof (tree_back _ _ A X E) as O. apply (ok_perm _ _ _) with (2 := P) in O. destruct (tree_accepted _ O) as (p' & E'). exists p'. split; auto.
  intros inputs traces exports. rewrite (lower_tree_means _ _ _ _ _ E A), (lower_tree_means _ _ _ _ _ E' (ok_apart _ _ O)).
  assert (N : forall m, In m (flat_map stmt_name stmts) <-> In m (flat_map stmt_name stmts')) by (intros m; split; apply Permutation_in, Permutation_flat_map; auto using Permutation_sym).
  split; intros (loc & fields & H1 & H2 & H3); exists loc, fields; (split; [intros m Hm; apply N, H1, Hm|]); (split; [intros st Hst; apply H2; eapply Permutation_in; [|exact Hst]; auto using Permutation_sym|congruence]).
Qed.
Print Assumptions c61_order.

(** From the text to what is rendered: lowered and optimized, a program without delays means what it says. *)
Theorem c61_compiled stmts : body_ok true stmts -> forallb stmt_prompt stmts = true -> exists p p', lower_tree stmts = Some p /\ optimize p = Some p' /\
  forall inputs traces exports, program_means p' (fun n => Some (inputs n)) (fun t => Some (traces t)) exports <-> source_means inputs traces stmts exports.
Proof.
  intros O Pr. destruct (tree_accepted _ O) as (p & E). pose proof (ok_apart _ _ O) as A.
  destruct (c59_optimize_means p (lower_tree_refs _ _ E A) (tree_tame _ _ Pr E)) as (p' & E' & _ & _ & _ & _ & M). exists p, p'. split; auto. split; auto.
  intros inputs traces exports. rewrite <- M. apply lower_tree_means; auto.
Qed.
Print Assumptions c61_compiled.
(** Its exports are determined by its inputs. *)
Theorem c61_source_unique stmts inputs traces exports1 exports2 : body_ok true stmts -> source_means inputs traces stmts exports1 -> source_means inputs traces stmts exports2 -> Forall2 same_coll exports1 exports2.
Proof.
  intros O. destruct (tree_accepted _ O) as (p & E). pose proof (ok_apart _ _ O) as A. rewrite <- !(lower_tree_means _ _ _ _ _ E A). apply program_unique.
Qed.
Print Assumptions c61_source_unique.

(** *** An example: paths from roots, with uses before definitions *)
Definition src_loop : list Stmt :=
  [SVar "x" (EJoin (EName "all") (EName "edges") k2);
   SLet "out" (EMap (ELiftIter (EName "all")) swap);
   SLet "all" (EConcat [EName "roots"; EName "x"])].
Definition src_paths : list Stmt := [SScope "paths" src_loop; SExport "out" (EQualified "paths" "out"); SLet "roots" (EInput 1); SLet "edges" (EInput 0)].
Definition src_rank (n : string) : nat := if String.eqb n "paths" then 2 else if String.eqb n "out" then 1 else 0.
Ltac cases H := simpl in H; repeat (destruct H as [H|H]); try contradiction; try discriminate H.
Example c61_paths_ok : body_ok true src_paths.
Proof.
  assert (V : forall n, In n ["roots"%string; "edges"%string] -> visible true src_paths n).
  { intros n [<-|[<-|[]]]; left; eexists; simpl; eauto 9. }
  assert (U : forall st m, In st src_loop -> needs st m -> In m ["all"%string; "edges"%string; "roots"%string; "x"%string]).
  { intros st m Hs H. apply uses_needs in H. cases Hs; subst st; simpl in H; simpl; tauto. }
  apply (BodyOk true src_paths src_rank).
  - repeat (apply NoDup_cons; [simpl; intuition discriminate|]). apply NoDup_nil.
  - intros n e H. cases H; injection H as <- <-; (split; [intros x [<-|[]]; reflexivity|]); intros m [[Hm|[]]|(f & [Hm|[]])]; discriminate.
  - intros n e [H|H]; cases H. injection H as <- <-. intros x [<-|[]]. exists src_loop. split; [left; auto|]. left. eexists. left. right. left. reflexivity.
  - auto.
  - intros n b H. cases H. injection H as <- <-. apply (BodyOk false src_loop src_rank).
    + repeat (apply NoDup_cons; [simpl; intuition discriminate|]). apply NoDup_nil.
    + assert (Va : visible false src_loop "all") by (left; eexists; simpl; eauto 9). assert (Vx : visible false src_loop "x") by (left; eexists; simpl; eauto 9).
      assert (Vr : visible false src_loop "roots") by (right; split; auto; simpl; intuition discriminate).
      intros n e H. cases H; injection H as <- <-.
      * split; [intros x [<-|[]]; exact Va|]. intros m Hm _. apply expr_names_In in Hm. cases Hm. subst m. unfold src_rank; simpl; lia.
      * split; [intros x [<-|[<-|[]]]; [exact Vr|exact Vx]|]. intros m Hm O. apply expr_names_In in Hm. apply defined_In in O. cases Hm; subst m; cases O.
    + intros n e [H|H]; cases H. injection H as <- <-. intros x [<-|[<-|[]]]; [left; eexists; simpl; eauto 9|right; split; auto; simpl; intuition discriminate].
    + intros n e H. cases H.
    + intros n b H. cases H.
    + intros n b H. cases H.
  - intros n b H m Hm. cases H. injection H as <- <-. inversion Hm as [| | |? ? st ? Hst Hs Hn]; subst. pose proof (U _ _ Hst Hs) as K. simpl in Hn.
    destruct K as [<-|[<-|[<-|[<-|[]]]]]; try (exfalso; apply Hn; simpl; tauto); (split; [apply V; simpl; auto|intros _; unfold src_rank; simpl; lia]).
Qed.
Example c61_paths_prompt : forallb stmt_prompt src_paths = true /\ program_apart src_paths /\ exports_at_root src_paths.
Proof. split; [reflexivity|]. split; [exact (ok_apart _ _ c61_paths_ok)|exact (proj1 (ok_exports _ _ c61_paths_ok))]. Qed.
Example c61_paths_lowered : exists p, lower_tree src_paths = Some p /\ op_count p = 6.
Proof. eexists. split; [vm_compute; reflexivity|reflexivity]. Qed.
(** With the inputs of [c59_paths_means] it has the exports it has there. *)
Definition c61_inputs (n : nat) : coll := nth n [c59_edges; c59_roots] [].
Definition c61_all : coll := c59_roots ++ c59_x ++ [].
Definition c61_lifted : coll := linear_of [LProject swap] 1 (linear_of [LLiftIter] 1 c61_all).
Definition assoc (l : list (string * coll)) (n : string) : option coll := lookup l n.
Example c61_paths_means : source_means c61_inputs (fun _ => []) src_paths [c59_out].
Proof.
  set (o := the (at_times (left_time 1) c61_lifted)). set (loc := assoc [("roots"%string, c59_roots); ("edges"%string, c59_edges)]).
  exists loc, (fun s f => if String.eqb s "paths" && String.eqb f "out" then Some o else None). split; [|split].
  - intros m. unfold loc, assoc. cbn [lookup]. destruct (String.eqb_spec "roots" m); [subst; intros _; simpl; auto|]. destruct (String.eqb_spec "edges" m); [subst; intros _; simpl; auto|congruence].
  - intros st H. cases H; subst st; cbn [stmt_means].
    + exists (assoc [("x"%string, c59_x); ("out"%string, c61_lifted); ("all"%string, c61_all)]), (fun _ _ => None). split; [|split; [split; [|split; [|split; [|exact I]]]|]].
      * intros m. unfold assoc. cbn [lookup]. destruct (String.eqb_spec "x" m); [subst; intros _; simpl; auto|]. destruct (String.eqb_spec "out" m); [subst; intros _; simpl; auto|]. destruct (String.eqb_spec "all" m); [subst; intros _; simpl; auto|congruence].
      * split; [discriminate|]. exists c59_x, (joined_of k2 c61_all c59_edges), (the (at_times (feedback_time 1) (joined_of k2 c61_all c59_edges))). split; [reflexivity|]. split.
        { exists c61_all, c59_edges. split; [eexists; split; [reflexivity|apply same_coll_refl]|]. split; [eexists; split; [reflexivity|apply same_coll_refl]|apply same_coll_refl]. }
        split; [reflexivity|]. apply same_collb_sound. vm_compute. reflexivity.
      * exists c61_lifted. split; [reflexivity|]. exists (linear_of [LLiftIter] 1 c61_all). split; [|apply same_coll_refl]. exists c61_all. split; [|apply same_coll_refl]. eexists. split; [reflexivity|apply same_coll_refl].
      * exists c61_all. split; [reflexivity|]. exists [c59_roots; c59_x]. split; [|split; [discriminate|apply same_coll_refl]]. split; [eexists; split; [reflexivity|apply same_coll_refl]|]. split; [eexists; split; [reflexivity|apply same_coll_refl]|exact I].
      * intros f c Hf. rewrite String.eqb_refl in Hf. cbn [andb] in Hf. destruct (String.eqb_spec f "out"); [|discriminate]. subst f. injection Hf as <-. exists c61_lifted, o. split; [reflexivity|]. split; [reflexivity|apply same_coll_refl].
    + exact I.
    + exists c59_roots. split; [reflexivity|apply same_coll_refl].
    + exists c59_edges. split; [reflexivity|apply same_coll_refl].
  - constructor; [|constructor]. exists o. split; [reflexivity|]. apply same_collb_sound. vm_compute. reflexivity.
Qed.
(** Lets that use each other are refused, and names that are not there. *)
Example c61_cycle_refused : lower_tree [SLet "a" (EArrange (EName "b")); SLet "b" (EArrange (EName "a"))] = None /\ lower_tree [SLet "a" (EName "b")] = None /\
  lower_tree [SLet "a" (EName "a")] = None /\ lower_tree [SScope "s" [SLet "a" (EInput 0)]] = None.
Proof. repeat split. Qed.

(** An export inside a scope is accepted and forgotten. *)
Theorem c61_inner_export_refuted : exists stmts p, lower_tree stmts = Some p /\ program_apart stmts /\
  In (SScope "s" [SExport "out" (EName "a")]) stmts /\ sc_exports p = [] /\ forall c, In (ISub c) (sc_items p) -> sc_exports c = [].
Proof.
  exists [SLet "a" (EInput 0); SScope "s" [SExport "out" (EName "a")]]. eexists. split; [vm_compute; reflexivity|]. split; [|split; [simpl; auto|split; [reflexivity|intros c [[= <-]|[]]; reflexivity]]].
  split; [repeat (apply NoDup_cons; [simpl; intuition discriminate|]); apply NoDup_nil|]. intros st [<-|[<-|[]]]; simpl; auto. split; [constructor|auto].
Qed.
Print Assumptions c61_inner_export_refuted.
