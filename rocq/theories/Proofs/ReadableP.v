(** Reading many batches at once. *)
From Verif Require Export Spec.ReadableSpec Proofs.CursorListP Proofs.TrieP Proofs.ShowsP Model.JoinTacticM.

Section Lengths.
Context {A : Type} {OA : Ord A}.
Lemma insert_set_length (a : A) l : length (insert_set a l) <= S (length l).
Proof. induction l as [|b l IH]; simpl; [lia|]. destruct (cmp a b); simpl; lia. Qed.
Lemma sort_set_length (l : list A) : length (sort_set l) <= length l.
Proof. induction l as [|a l IH]; simpl; [lia|]. pose proof (insert_set_length a (sort_set l)). lia. Qed.
End Lengths.

Section Readable.
Context {B M C K V T R : Type} {OK : Ord K} {OV : Ord V} {TT : Time T} {DR : Diff R}.
Variable bops : BatchOps B M T. Variable contents : B -> list (K * V * T * R). Variable laws : BatchLaws (D:=K*V) bops contents.
Variable cops : CursorOps B C K V T R. Variable new : C.
Hypothesis HR : readable bops contents laws cops new.

Lemma add_update_length (u : K * V * T * R) (tr : trie K V T R) : length (add_update u tr) <= S (length tr).
Proof.
  destruct u as [[[k v] t] r]. unfold add_update. destruct tr as [|[k' [|[v' l] vs]] tr]; simpl; try lia.
  destruct (eqb k k'); [destruct (eqb v v')|]; simpl; lia.
Qed.
Lemma trie_of_length (us : list (K * V * T * R)) : length (trie_of us) <= length us.
Proof.
  induction us as [|u us IH]; [simpl; lia|]. change (trie_of (u :: us)) with (add_update u (trie_of us)).
  pose proof (add_update_length u (trie_of us)). simpl. lia.
Qed.
Lemma add_update_vals (u : K * V * T * R) (tr : trie K V T R) k0 : length (vals_under (add_update u tr) k0) <= S (length (vals_under tr k0)).
Proof.
  destruct u as [[[k v] t] r]. unfold add_update, vals_under. destruct tr as [|[k' [|[v' l] vs]] tr]; cbn [flat_map fst snd].
  - destruct (eqb k k0); simpl; lia.
  - destruct (eqb k k0); simpl; lia.
  - destruct (eqb_spec k k') as [->|]; [destruct (eqb v v')|]; cbn [flat_map fst snd]; rewrite !app_length.
    1,2: destruct (eqb k' k0); simpl; lia. destruct (eqb k k0), (eqb k' k0); simpl; lia.
Qed.
Lemma vals_under_length (us : list (K * V * T * R)) k : length (vals_under (trie_of us) k) <= length us.
Proof.
  induction us as [|u us IH]; [simpl; lia|]. change (trie_of (u :: us)) with (add_update u (trie_of us)).
  pose proof (add_update_vals u (trie_of us) k). simpl. lia.
Qed.
Definition tries (bs : list B) := map (fun b => trie_of (contents b)) bs.
Lemma union_weights bs : same_weights (A:=K*V*T) (flat (union_trie (tries bs))) (flat_map contents bs).
Proof.
  intros a. rewrite (union_trie_weights _ a). f_equal. unfold tries. rewrite flat_map_concat_map, map_map, flat_map_concat_map. f_equal.
  apply map_ext. intros b. apply flat_trie_of.
Qed.
Lemma sum_len_contents bs : Forall (bl_ok _ _ laws) bs -> sum_len (b_len bops) bs = length (flat_map contents bs).
Proof. induction 1 as [|b bs H _ IH]; simpl; auto. rewrite app_length, IH, (bl_len _ _ laws b H). auto. Qed.
Lemma union_length bs : length (union_trie (tries bs)) <= length (flat_map contents bs) /\
  Forall (fun e => length (snd e) <= length (flat_map contents bs)) (union_trie (tries bs)).
Proof.
  unfold union_trie. split.
  - rewrite map_length. etransitivity; [apply sort_set_length|]. unfold tries. induction bs as [|b bs IH]; simpl; auto.
    rewrite !app_length, map_length. pose proof (trie_of_length (contents b)). lia.
  - rewrite Forall_map. apply Forall_forall. intros k _. simpl. rewrite map_length. etransitivity; [apply sort_set_length|].
    unfold tries. induction bs as [|b bs IH]; simpl; auto. rewrite !app_length, map_length. pose proof (vals_under_length (contents b) k). lia.
Qed.
Lemma union_sorted bs : strictly_sorted (map fst (union_trie (tries bs))).
Proof. apply (keys_U_sorted (tries bs)). Qed.
Lemma cursor_list_ok bs : Forall (bl_ok _ _ laws) bs ->
  exists cl, cursor_list cops new bs = Some cl /\ presents_if (shared_seeks (tries bs)) (cl_ops cops) bs cl (union_trie (tries bs)).
Proof.
  intros H. destruct (cl_presents cops (map (fun b => (b, new, trie_of (contents b))) bs)) as (cl & E & HP).
  - rewrite Forall_map. eapply Forall_impl; [|exact H]. intros b Hb. destruct (HR b Hb) as [[H1 _] H2]. cbn [fst snd].
    split; [|exact H1]. apply wf_sorted, trie_of_wf, H2.
  - rewrite !map_map in E, HP. cbn [fst snd] in E, HP. rewrite map_id in E, HP. exists cl. split; [exact E|exact HP].
Qed.
Lemma cursor_list_no_seek bs : Forall (bl_ok _ _ laws) bs ->
  exists cl, cursor_list cops new bs = Some cl /\ presents_if no_seek_val (cl_ops cops) bs cl (union_trie (tries bs)).
Proof.
  intros H. destruct (cursor_list_ok bs H) as (cl & E & HP). exists cl. split; auto. eapply presents_if_weaken; [|exact HP].
  intros p op. apply shared_no_seek.
Qed.
End Readable.
