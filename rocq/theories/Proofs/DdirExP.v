(** Deciding whether two collections are the same. *)
From Verif Require Import Model.RenderM Spec.DdirSpec Proofs.DdirP Proofs.DdirMeansP.
Local Open Scope nat_scope.

Definition same_collb (c1 c2 : coll) : bool :=
  forallb (fun x => Z.eqb (weight (A:=row*itime) c1 x) (weight (A:=row*itime) c2 x)) (map fst (c1 ++ c2)).
Lemma same_collb_sound c1 c2 : same_collb c1 c2 = true -> same_coll c1 c2.
Proof.
  intros H x. unfold same_collb in H. rewrite forallb_forall in H. destruct (in_dec (fun a b => eq_dec (A:=row*itime) a b) x (map fst (c1 ++ c2))) as [Hi|Hi].
  - apply Z.eqb_eq, H, Hi.
  - rewrite map_app, in_app_iff in Hi. rewrite !(weight_notin (A:=row*itime)); tauto.
Qed.
Lemma same_collb_complete c1 c2 : same_coll c1 c2 -> same_collb c1 c2 = true.
Proof. intros H. unfold same_collb. apply forallb_forall. intros x _. apply Z.eqb_eq, H. Qed.

(** Where nothing panics, [render_linear] is the meaning of a linear operator. *)
Lemma op_all_quiet level iter op rs out : op_all level iter op rs = Some out -> out = flat_map (fun x => quietly (op_results level iter op x)) rs.
Proof.
  revert out. induction rs as [|x rs IH]; simpl; intros out; [congruence|]. destruct (op_results level iter op x); [|discriminate].
  destruct (op_all level iter op rs); [|discriminate]. intros [= <-]. simpl. f_equal; auto.
Qed.
Lemma run_ops_quiet level iter ops rs out : run_ops level iter ops rs = Some out -> out = quiet_ops level iter ops rs.
Proof.
  revert rs. induction ops as [|op ops IH]; simpl; intros rs; [congruence|]. destruct (op_all level iter op rs) as [r|] eqn:E; [|discriminate].
  intros H. rewrite (op_all_quiet _ _ _ _ _ E) in H. auto.
Qed.
Lemma render_linear_quiet ops level c out : render_linear ops level c = Some out -> out = linear_of ops level c.
Proof.
  revert out. induction c as [|[[d t] r] c IH]; intros out; [intros [= <-]; reflexivity|]. cbn [render_linear linear_update].
  destruct (run_ops level (iter_at_level level t) ops [(d, tmin, 1%Z)]) as [rs|] eqn:E; [|discriminate].
  destruct (render_linear ops level c) as [r'|]; [|discriminate]. intros [= <-]. rewrite (IH _ eq_refl). rewrite (run_ops_quiet _ _ _ _ _ E). reflexivity.
Qed.

(** A reference is good, a scope is tame: decided. *)
Definition ref_okb (s : Scope) (bound : nat) (r : Ref) : bool :=
  match r with
  | RLocal i => (i <? bound) && match nth_error (sc_items s) i with Some (IOp _) => true | _ => false end
  | RChildExport i j => (i <? bound) && match nth_error (sc_items s) i with Some (ISub c) => j <? length (sc_exports c) | _ => false end
  | RImport i => i <? length (sc_imports s)
  | RVar i => i <? length (sc_vars s)
  end.
Lemma ref_okb_sound s bound r : ref_okb s bound r = true -> ref_ok s bound r.
Proof.
  destruct r as [i|i|i|i j]; simpl; rewrite ?andb_true_iff, ?Nat.ltb_lt; auto.
  - intros (H1 & H2). split; auto. destruct (nth_error (sc_items s) i) as [[n|c]|]; try discriminate. eauto.
  - intros (H1 & H2). split; auto. destruct (nth_error (sc_items s) i) as [[n|c]|]; try discriminate. apply Nat.ltb_lt in H2. eauto.
Qed.
Definition refs_okb (s : Scope) : bool :=
  forallb (fun p => forallb (ref_okb s (fst p)) (item_refs (snd p))) (List.combine (seq 0 (length (sc_items s))) (sc_items s)) &&
  forallb (fun b => ref_okb s (length (sc_items s)) (bi_value b)) (sc_binds s) &&
  forallb (fun e => ref_okb s (length (sc_items s)) (ex_value e)) (sc_exports s).
Lemma nth_combine_seq {A} (l : list A) n x k : nth_error l n = Some x -> In (k + n, x) (List.combine (seq k (length l)) l).
Proof.
  revert n k. induction l as [|a l IH]; intros [|n] k; simpl; try discriminate.
  - intros [= ->]. rewrite Nat.add_0_r. auto.
  - intros E. right. specialize (IH n (S k) E). replace (k + S n) with (S k + n) by lia. auto.
Qed.
Lemma refs_okb_sound s : refs_okb s = true -> refs_ok s.
Proof.
  unfold refs_okb. rewrite !andb_true_iff. intros ((H1 & H2) & H3). rewrite forallb_forall in H1, H2, H3. split; [|split].
  - intros n it r E Hr. specialize (H1 _ (nth_combine_seq _ _ _ 0 E)). simpl in H1. rewrite forallb_forall in H1. apply ref_okb_sound; auto.
  - intros b Hb. apply ref_okb_sound; auto.
  - intros e He. apply ref_okb_sound; auto.
Qed.
(* no linear operator that looks at times reads another *)
Definition tameb (s : Scope) : bool :=
  forallb (fun it => match it with
                     | IOp (NLinear (RLocal j) ops) => negb (existsb times ops) || match nth_error (sc_items s) j with Some (IOp (NLinear _ _)) => false | _ => true end
                     | _ => true
                     end) (sc_items s).
Lemma tameb_sound s : tameb s = true -> tame s.
Proof.
  unfold tameb. rewrite forallb_forall. intros H n r ops E Ht Hd. specialize (H _ (nth_error_In _ _ E)). simpl in H.
  inversion Hd; subst; simpl in H; rewrite Ht, H0 in H; discriminate.
Qed.
