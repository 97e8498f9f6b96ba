(** C59, C60: programs of the interactive crate mean what they meant before they are optimized, and mean one
    thing, which as of any moment is what they make of their inputs as of that moment. *)
From Verif Require Import Model.RenderM Spec.DdirSpec Proofs.DdirP Proofs.DdirMeansP Proofs.OptimizeP Proofs.OptimizeAllP Proofs.DdirSnapP Proofs.DdirExP.
Local Open Scope nat_scope.

(** ** C59 *)
(** A program whose references name what is there, and in which no chain of linear operators delays records
    and then looks at times, is optimized without a panic to one that has the same exports for all inputs,
    and no others. *)
Theorem c59_optimize_means s : everywhere refs_ok s -> everywhere tame s -> exists s', optimize s = Some s' /\
  sc_name s' = sc_name s /\ sc_imports s' = sc_imports s /\ sc_vars s' = sc_vars s /\ map ex_name (sc_exports s') = map ex_name (sc_exports s) /\
  forall inputs traces exports, program_means s inputs traces exports <-> program_means s' inputs traces exports.
Proof.
  intros R T. destruct (optimize_spec s R T) as (s' & E & _ & _ & (H1 & H2 & H3 & H4) & _ & M). exists s'. repeat (split; [assumption|]).
  intros inputs traces exports. unfold program_means, root_imports. rewrite H2.
  split; intros (ims & Ei & Hm); exists ims; (split; [assumption|apply M; assumption]).
Qed.
Print Assumptions c59_optimize_means.

(** Also for a scope inside another, at any depth, whatever it imports. *)
Theorem c59_optimize_scope_means s s' : everywhere refs_ok s -> everywhere tame s -> optimize s = Some s' ->
  forall depth imports exports, scope_means depth s imports exports <-> scope_means depth s' imports exports.
Proof. intros R T E. destruct (optimize_spec s R T) as (s'' & E' & _ & _ & _ & _ & M). rewrite E in E'. injection E' as <-. exact M. Qed.
Print Assumptions c59_optimize_scope_means.

(** The result has good references, no more operators, and nothing left to rewrite. *)
Theorem c59_optimize_settles s s' : everywhere refs_ok s -> everywhere tame s -> optimize s = Some s' ->
  everywhere refs_ok s' /\ everywhere settled s' /\ op_count s' <= op_count s.
Proof. intros R T E. destruct (optimize_spec s R T) as (s'' & E' & R' & S' & _ & C & _). rewrite E in E'. injection E' as <-. auto. Qed.
Print Assumptions c59_optimize_settles.

(** *** An example: paths from roots, in a loop, with an arrangement of an arrangement and two linear operators
    in a row *)
Definition k2 : Projection := {| p_key := TVar 2; p_val := TTuple [] |}.
Definition swap : Projection := {| p_key := TVar 1; p_val := TVar 0 |}.
Definition paths_loop : Scope := MkScope "paths"
  [{| im_name := "edges"; im_from := SParent (RImport 0) |}; {| im_name := "roots"; im_from := SParent (RImport 1) |}] ["x"%string]
  [IOp (NConcat [RImport 1; RVar 0]);
   IOp (NArrange (RLocal 0)); IOp (NArrange (RImport 0));
   IOp (NJoin (RLocal 1) (RLocal 2) k2);
   IOp (NArrange (RLocal 1));
   IOp (NLinear (RLocal 4) [LLiftIter]);
   IOp (NLinear (RLocal 5) [LProject swap])]
  [{| bi_var := 0; bi_value := RLocal 3 |}] [{| ex_name := "out"; ex_value := RLocal 6 |}].
Definition paths : Scope := MkScope "root"
  [{| im_name := "edges"; im_from := SInput 0 |}; {| im_name := "roots"; im_from := SInput 1 |}] []
  [ISub paths_loop] [] [{| ex_name := "out"; ex_value := RChildExport 0 0 |}].
Example c59_paths_ok : everywhere refs_ok paths /\ everywhere tame paths.
Proof.
  split.
  - constructor; [apply refs_okb_sound; vm_compute; reflexivity|]. intros c [H|[]]. injection H as <-. constructor; [apply refs_okb_sound; vm_compute; reflexivity|].
    intros c H. simpl in H. repeat (destruct H as [H|H]; [discriminate H|]). contradiction.
  - constructor; [apply tameb_sound; vm_compute; reflexivity|]. intros c [H|[]]. injection H as <-. constructor; [apply tameb_sound; vm_compute; reflexivity|].
    intros c H. simpl in H. repeat (destruct H as [H|H]; [discriminate H|]). contradiction.
Qed.
Example c59_paths_optimized : exists s', optimize paths = Some s' /\ op_count paths = 7 /\ op_count s' = 5.
Proof. eexists. split; [vm_compute; reflexivity|]. split; reflexivity. Qed.

(** The program has a meaning: two edges, of which the second appears later. *)
Definition at0 : itime := (0, mk_ps []).
Definition at1 : itime := (1, mk_ps []).
Definition int (n : Z) : Value := VInt n.
Definition c59_edges : coll := [((int 1, int 2), at0, 1%Z); ((int 2, int 3), at1, 1%Z)].
Definition c59_roots : coll := [((int 1, v_unit), at0, 1%Z)].
Definition c59_inputs (i : nat) : option coll := nth_error [c59_edges; c59_roots] i.
Definition the {A} (o : option (list A)) : list A := match o with Some l => l | None => [] end.
Definition c59_x : coll := [((int 2, v_unit), (0, mk_ps [1]), 1%Z); ((int 3, v_unit), (1, mk_ps [2]), 1%Z)].
Definition c59_vals : list rvalue :=
  let c0 := c59_roots ++ c59_x ++ [] in
  let c3 := joined_of k2 c0 c59_edges in
  let c5 := linear_of [LLiftIter] 1 c0 in
  [VOp c0; VOp c0; VOp c59_edges; VOp c3; VOp c0; VOp c5; VOp (linear_of [LProject swap] 1 c5)].
(** roots and what they reach, with the lengths of the paths *)
Definition c59_out : coll :=
  [((VTuple [int 0], int 1), at0, 1%Z); ((VTuple [int 1], int 2), at0, 1%Z); ((VTuple [int 2], int 3), at1, 1%Z)].
Example c59_paths_means : program_means paths c59_inputs (fun _ => None) [c59_out].
Proof.
  exists [c59_edges; c59_roots]. split; [reflexivity|]. apply scope_means_iff.
  set (e := match nth_error c59_vals 6 with Some (VOp c) => c | _ => [] end).
  assert (El : at_times (left_time 1) e = Some (the (at_times (left_time 1) e))) by reflexivity.
  exists [], [VSub [the (at_times (left_time 1) e)]]. split; [reflexivity|]. split; [split; [reflexivity|]|split; [split; constructor|split; [|split; [intros H; exfalso; apply H; reflexivity|]]]].
  - intros n it E. destruct n as [|n]; [|destruct n; discriminate E]. injection E as <-. exists [c59_edges; c59_roots], [e], [the (at_times (left_time 1) e)].
    split; [reflexivity|]. split; [reflexivity|]. split; [|constructor; [exists (the (at_times (left_time 1) e)); split; [exact El|apply same_coll_refl]|constructor]].
    apply scope_means_iff. exists [c59_x], c59_vals. split; [reflexivity|]. split; [split; [reflexivity|]|].
    + intros n it E. destruct n as [|[|[|[|[|[|[|n]]]]]]]; [..|destruct n; discriminate E]; injection E as <-; (eexists; split; [reflexivity|]).
      * exists [c59_roots; c59_x]. split; [reflexivity|]. split; [discriminate|apply same_coll_refl].
      * eexists. split; [reflexivity|apply same_coll_refl].
      * eexists. split; [reflexivity|apply same_coll_refl].
      * eexists _, _. split; [reflexivity|]. split; [reflexivity|apply same_coll_refl].
      * eexists. split; [reflexivity|apply same_coll_refl].
      * eexists. split; [reflexivity|apply same_coll_refl].
      * eexists. split; [reflexivity|apply same_coll_refl].
    + split; [split; [repeat constructor|apply NoDup_cons; [intros []|constructor]]|]. split; [|split; [intros _; discriminate|]].
      * intros v c E. destruct v as [|v]; [|destruct v; discriminate E]. injection E as <-. unfold bind_means. cbn [find bi_var sc_binds paths_loop Nat.eqb].
        exists (match nth_error c59_vals 3 with Some (VOp c) => c | _ => [] end), (the (at_times (feedback_time 1) (match nth_error c59_vals 3 with Some (VOp c) => c | _ => [] end))).
        split; [reflexivity|]. split; [reflexivity|]. apply same_collb_sound. vm_compute. reflexivity.
      * exists [e]. split; [reflexivity|]. constructor; [apply same_coll_refl|constructor].
  - intros [|v] c E; discriminate E.
  - exists [the (at_times (left_time 1) e)]. split; [reflexivity|]. constructor; [apply same_collb_sound; vm_compute; reflexivity|constructor].
Qed.

(** *** Chains that delay records and then look at times change their meaning when they are fused *)
Definition delay_loop (ops1 ops2 : list LinearOp) : Scope := MkScope "loop"
  [{| im_name := "c"; im_from := SParent (RImport 0) |}] []
  [IOp (NLinear (RImport 0) ops1); IOp (NLinear (RLocal 0) ops2); IOp (NConcat [RLocal 1]); IOp (NLinear (RLocal 2) [LLiftIter])]
  [] [{| ex_name := "out"; ex_value := RLocal 3 |}].
Definition fused_loop (ops : list LinearOp) : Scope := MkScope "loop"
  [{| im_name := "c"; im_from := SParent (RImport 0) |}] []
  [IOp (NLinear (RImport 0) ops); IOp (NConcat [RLocal 0]); IOp (NLinear (RLocal 1) [LLiftIter])]
  [] [{| ex_name := "out"; ex_value := RLocal 2 |}].
Definition around (s : Scope) : Scope := MkScope "root" [{| im_name := "c"; im_from := SInput 0 |}] [] [ISub s] [] [{| ex_name := "out"; ex_value := RChildExport 0 0 |}].
Definition c59_in : coll := [((int 7, VTuple []), at0, 1%Z)].
Definition delay_out (ops1 ops2 : list LinearOp) : coll :=
  the (at_times (left_time 1) (linear_of [LLiftIter] 1 (linear_of ops2 1 (linear_of ops1 1 c59_in) ++ []))).
Definition fused_out (ops : list LinearOp) : coll := the (at_times (left_time 1) (linear_of [LLiftIter] 1 (linear_of ops 1 c59_in ++ []))).
Lemma around_means s e o : scope_means 1 s [c59_in] [e] -> at_times (left_time 1) e = Some o -> length (sc_exports s) = 1 -> sc_imports s = [{| im_name := "c"; im_from := SParent (RImport 0) |}] ->
  program_means (around s) (fun _ => Some c59_in) (fun _ => None) [o].
Proof.
  intros M E L Im. exists [c59_in]. split; [reflexivity|]. apply scope_means_iff. exists [], [VSub [o]]. split; [reflexivity|].
  split; [split; [reflexivity|]|split; [split; constructor|split; [|split; [intros H; exfalso; apply H; reflexivity|]]]].
  - intros n it En. destruct n as [|n]; [|destruct n; discriminate En]. injection En as <-. exists [c59_in], [e], [o]. split; [reflexivity|]. rewrite Im. split; [reflexivity|].
    split; [exact M|]. constructor; [exists o; split; [exact E|apply same_coll_refl]|constructor].
  - intros [|v] c Ev; discriminate Ev.
  - exists [o]. split; [reflexivity|]. constructor; [apply same_coll_refl|constructor].
Qed.
Lemma delay_means ops1 ops2 : program_means (around (delay_loop ops1 ops2)) (fun _ => Some c59_in) (fun _ => None) [delay_out ops1 ops2].
Proof.
  set (c1 := linear_of ops1 1 c59_in). set (c2 := linear_of ops2 1 c1). set (e := linear_of [LLiftIter] 1 (c2 ++ [])).
  destruct (at_times_total (left_time 1) e (left_time_total 0)) as (o & Eo). unfold delay_out. fold c1 c2 e. rewrite Eo. apply (around_means _ e); auto.
  apply scope_means_iff. exists [], [VOp c1; VOp c2; VOp (c2 ++ []); VOp e]. split; [reflexivity|].
  split; [split; [reflexivity|]|split; [split; constructor|split; [|split; [intros H; exfalso; apply H; reflexivity|]]]].
  - intros n it E. destruct n as [|[|[|[|n]]]]; [..|destruct n; discriminate E]; injection E as <-; (eexists; split; [reflexivity|]);
      (eexists; split; [reflexivity|]); try apply same_coll_refl. split; [discriminate|apply same_coll_refl].
  - intros [|v] c E; discriminate E.
  - exists [e]. split; [reflexivity|]. constructor; [apply same_coll_refl|constructor].
Qed.
Lemma fused_means ops : program_means (around (fused_loop ops)) (fun _ => Some c59_in) (fun _ => None) [fused_out ops].
Proof.
  set (c1 := linear_of ops 1 c59_in). set (e := linear_of [LLiftIter] 1 (c1 ++ [])).
  destruct (at_times_total (left_time 1) e (left_time_total 0)) as (o & Eo). unfold fused_out. fold c1 e. rewrite Eo. apply (around_means _ e); auto.
  apply scope_means_iff. exists [], [VOp c1; VOp (c1 ++ []); VOp e]. split; [reflexivity|].
  split; [split; [reflexivity|]|split; [split; constructor|split; [|split; [intros H; exfalso; apply H; reflexivity|]]]].
  - intros n it E. destruct n as [|[|[|n]]]; [..|destruct n; discriminate E]; injection E as <-; (eexists; split; [reflexivity|]);
      (eexists; split; [reflexivity|]); try apply same_coll_refl. split; [discriminate|apply same_coll_refl].
  - intros [|v] c E; discriminate E.
  - exists [e]. split; [reflexivity|]. constructor; [apply same_coll_refl|constructor].
Qed.
Lemma around_ok s : refs_ok s -> length (sc_exports s) = 1 -> (forall c, ~ In (ISub c) (sc_items s)) -> sc_imports s = [{| im_name := "c"; im_from := SParent (RImport 0) |}] -> everywhere refs_ok (around s).
Proof.
  intros R L N Im. constructor.
  - apply refs_okb_sound. unfold refs_okb; simpl. rewrite Im, L. reflexivity.
  - intros c [H|[]]. injection H as <-. constructor; auto. intros c H. destruct (N c H).
Qed.
(** Delaying twice: a record the first delays until round 256 and the second not at all is delayed until round
    256; fused, only the second delay counts. *)
Definition delay1 := LEnterAt (TInt 1). Definition delay0 := LEnterAt (TInt 0).
Lemma fuse_changes ops1 ops2 : refs_okb (delay_loop ops1 ops2) = true -> optimize (around (delay_loop ops1 ops2)) = Some (around (fused_loop (ops1 ++ ops2))) ->
  same_collb (delay_out ops1 ops2) (fused_out (ops1 ++ ops2)) = false ->
  exists s s' inputs exports, everywhere refs_ok s /\ optimize s = Some s' /\ program_means s inputs (fun _ => None) exports /\ ~ program_means s' inputs (fun _ => None) exports.
Proof.
  intros R O D. exists (around (delay_loop ops1 ops2)), (around (fused_loop (ops1 ++ ops2))), (fun _ => Some c59_in), [delay_out ops1 ops2].
  split; [|split; [exact O|split; [apply delay_means|]]].
  - apply around_ok; [apply refs_okb_sound; exact R|reflexivity| |reflexivity]. intros c H. simpl in H. repeat (destruct H as [H|H]; [discriminate H|]). exact H.
  - intros M. pose proof (program_unique _ _ _ _ _ M (fused_means (ops1 ++ ops2))) as F. inversion F as [|? ? ? ? F' _]; subst. apply same_collb_complete in F'. congruence.
Qed.
Theorem c59_fuse_delays_refuted : exists s s' inputs exports, everywhere refs_ok s /\ optimize s = Some s' /\
  program_means s inputs (fun _ => None) exports /\ ~ program_means s' inputs (fun _ => None) exports.
Proof. apply (fuse_changes [delay1] [delay0]); vm_compute; reflexivity. Qed.
Print Assumptions c59_fuse_delays_refuted.
(** Delaying and then lifting the round: the round of the delayed record, and fused the round before it. *)
Theorem c59_fuse_round_refuted : exists s s' inputs exports, everywhere refs_ok s /\ optimize s = Some s' /\
  program_means s inputs (fun _ => None) exports /\ ~ program_means s' inputs (fun _ => None) exports.
Proof. apply (fuse_changes [delay1] [LLiftIter]); vm_compute; reflexivity. Qed.
Print Assumptions c59_fuse_round_refuted.
Example c59_delay_outs :
  same_collb (delay_out [delay1] [delay0]) [((int 7, VTuple [int 256]), at0, 1%Z)] = true /\
  same_collb (fused_out [delay1; delay0]) [((int 7, VTuple [int 0]), at0, 1%Z)] = true /\
  same_collb (delay_out [delay1] [LLiftIter]) [((int 7, VTuple [int 256; int 256]), at0, 1%Z)] = true /\
  same_collb (fused_out [delay1; LLiftIter]) [((int 7, VTuple [int 0; int 256]), at0, 1%Z)] = true.
Proof. vm_compute. auto. Qed.

(** ** C60 *)
(** Whatever the order and batching of the dataflow's work: its exports are determined by its inputs. *)
Theorem c60_exports_unique s inputs traces exports1 exports2 :
  program_means s inputs traces exports1 -> program_means s inputs traces exports2 -> Forall2 same_coll exports1 exports2.
Proof. apply program_unique. Qed.
Print Assumptions c60_exports_unique.

(** As of any moment the exports are what the program makes of the inputs as of that moment: of a program
    started with those inputs and run on nothing else. *)
Theorem c60_as_of n s inputs traces exports : program_means s inputs traces exports ->
  program_means s (fun i => option_map (as_of n) (inputs i)) (fun name => option_map (as_of n) (traces name)) (map (as_of n) exports).
Proof. apply program_as_of. Qed.
Print Assumptions c60_as_of.
Corollary c60_from_scratch n s inputs traces exports scratch : program_means s inputs traces exports ->
  program_means s (fun i => option_map (as_of n) (inputs i)) (fun name => option_map (as_of n) (traces name)) scratch ->
  Forall2 same_coll (map (as_of n) exports) scratch.
Proof. intros H. apply program_unique. apply program_as_of; auto. Qed.
Print Assumptions c60_from_scratch.

(** Later changes of the inputs do not change what was exported. *)
Definition same_until (n : nat) (c1 c2 : coll) : Prop := forall d t, fst t <= n -> weight (A:=row*itime) c1 (d, t) = weight (A:=row*itime) c2 (d, t).
Theorem c60_no_look_ahead n s inputs1 traces1 exports1 inputs2 traces2 exports2 :
  (forall i c1 c2, inputs1 i = Some c1 -> inputs2 i = Some c2 -> same_until n c1 c2) ->
  (forall name c1 c2, traces1 name = Some c1 -> traces2 name = Some c2 -> same_until n c1 c2) ->
  program_means s inputs1 traces1 exports1 -> program_means s inputs2 traces2 exports2 -> Forall2 (same_until n) exports1 exports2.
Proof. apply program_until. Qed.
Print Assumptions c60_no_look_ahead.

(** Where no term panics the linear operators compute what they mean. *)
Theorem c60_linear ops level c out : render_linear ops level c = Some out -> out = linear_of ops level c.
Proof. apply render_linear_quiet. Qed.
Print Assumptions c60_linear.

(** the paths of the example, before the second edge appears *)
Example c60_paths_before : program_means paths (fun i => option_map (as_of 0) (c59_inputs i)) (fun _ => None)
  [[((VTuple [int 0], int 1), at0, 1%Z); ((VTuple [int 1], int 2), at0, 1%Z)]].
Proof. exact (c60_as_of 0 paths c59_inputs (fun _ => None) [c59_out] c59_paths_means). Qed.
Example c60_paths_linear : exists out, render_linear [LProject swap] 1 c59_edges = Some out /\ length out = 2.
Proof. eexists. split; reflexivity. Qed.
(** a program with a reduction *)
Definition counts : Scope := MkScope "root" [{| im_name := "c"; im_from := SInput 0 |}] [] [IOp (NReduce (RImport 0) RCount)] [] [{| ex_name := "out"; ex_value := RLocal 0 |}].
Example c60_counts : program_means counts (fun _ => Some [((int 1, int 5), at0, 3%Z)]) (fun _ => None) [[((int 1, VTuple [int 3]), at0, 1%Z)]].
Proof.
  exists [[((int 1, int 5), at0, 3%Z)]]. split; [reflexivity|]. apply scope_means_iff. exists [], [VOp [((int 1, VTuple [int 3]), at0, 1%Z)]]. split; [reflexivity|].
  split; [split; [reflexivity|]|split; [split; constructor|split; [|split; [intros H; exfalso; apply H; reflexivity|]]]].
  - intros n it E. destruct n as [|n]; [|destruct n; discriminate E]. injection E as <-. eexists. split; [reflexivity|]. eexists. split; [reflexivity|].
    intros k t. assert (Hm : tle (T:=itime) at0 t = true) by (apply itime_tle; split; [apply Nat.le_0_l|intros i; destruct i; apply Nat.le_0_l]).
    destruct (eq_dec k (int 1)) as [->|Hk].
    + exists [(int 5, 3%Z)]. split; [split; repeat constructor|]. split; intros v.
      * rewrite acc_cons', acc_nil, weight_cons', weight_nil. cbn [fst snd]. rewrite Hm, andb_true_r. change (eqb (A:=row) (int 1, int 5) (int 1, v)) with (eqb (A:=Value) (int 1) (int 1) && eqb (int 5) v).
        rewrite eqb_refl. reflexivity.
      * rewrite acc_cons', acc_nil. cbn [fst snd]. rewrite Hm, andb_true_r. change (reduce_row RCount [(int 5, 3%Z)]) with [(VTuple [int 3], 1%Z)]. rewrite weight_cons', weight_nil. cbn [fst snd].
        change (eqb (A:=row) (int 1, VTuple [int 3]) (int 1, v)) with (eqb (A:=Value) (int 1) (int 1) && eqb (VTuple [int 3]) v). rewrite eqb_refl. reflexivity.
    + exists []. split; [split; constructor|]. assert (Hn : forall a v, eqb (A:=row) (int 1, a) (k, v) = false) by (intros; destruct (eqb_spec (A:=row) (int 1, a) (k, v)); congruence).
      split; intros v; rewrite acc_cons', acc_nil; cbn [fst snd]; rewrite Hn; reflexivity.
  - intros [|v] c E; discriminate E.
  - eexists. split; [reflexivity|]. constructor; [apply same_coll_refl|constructor].
Qed.
