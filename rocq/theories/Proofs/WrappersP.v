(** Cursors whose times are moved. *)
From Verif Require Export Spec.LinearSpec Spec.Presents Spec.BatchSpec Model.WrappersM Proofs.LatticeP Proofs.LinearP.

Section Retimed.
Context {K V T T2 R : Type} {OK : Ord K} {OV : Ord V} {TT : Time T} {TT2 : Time T2}.
(** the same keys and values, with each list of updates moved *)
Definition retrie (m : K -> V -> list (T * R) -> list (T2 * R)) (tr : trie K V T R) : trie K V T2 R :=
  map (fun e => (fst e, map (fun x => (fst x, m (fst e) (fst x) (snd x))) (snd e))) tr.
Variable m : K -> V -> list (T * R) -> list (T2 * R).
Lemma retrie_nth tr i : nth_error (retrie m tr) i = option_map (fun e => (fst e, map (fun x => (fst x, m (fst e) (fst x) (snd x))) (snd e))) (nth_error tr i).
Proof. unfold retrie. revert i. induction tr as [|e tr IH]; intros [|i]; simpl; auto. Qed.
Lemma cur_vals_retrie tr p : cur_vals (retrie m tr) p =
  match at_key tr p with Some k => map (fun x => (fst x, m k (fst x) (snd x))) (cur_vals tr p) | None => [] end.
Proof. unfold cur_vals, at_key. rewrite retrie_nth. destruct (nth_error tr (kp p)) as [[k vs]|]; auto. Qed.
Lemma at_key_retrie tr p : at_key (retrie m tr) p = at_key tr p.
Proof. unfold at_key. rewrite retrie_nth. destruct (nth_error tr (kp p)) as [[k vs]|]; auto. Qed.
Lemma at_key_none (tr : trie K V T R) p : at_key tr p = None -> cur_vals tr p = [].
Proof. unfold at_key, cur_vals. destruct (nth_error tr (kp p)) as [[k vs]|]; simpl; [discriminate|auto]. Qed.
Lemma nth_error_map' {A B} (f : A -> B) l i : nth_error (map f l) i = option_map f (nth_error l i).
Proof. revert i. induction l as [|e l IH]; intros [|i]; simpl; auto. Qed.
Lemma at_val_retrie tr p : at_val (retrie m tr) p = at_val tr p.
Proof.
  unfold at_val. rewrite cur_vals_retrie. destruct (at_key tr p) as [k|] eqn:Ek.
  - rewrite nth_error_map'. destruct (nth_error (cur_vals tr p) (vp p)); auto.
  - rewrite (at_key_none tr p Ek). destruct (vp p); auto.
Qed.
Lemma at_times_retrie tr p k v : at_key tr p = Some k -> at_val tr p = Some v -> at_times (retrie m tr) p = m k v (at_times tr p).
Proof.
  unfold at_val, at_times. rewrite cur_vals_retrie. intros -> Hv. rewrite nth_error_map'.
  destruct (nth_error (cur_vals tr p) (vp p)) as [[v' l]|]; simpl in *; [|discriminate]. inversion Hv. auto.
Qed.
Lemma prefix_len_skipn_map {A B} (f : A -> B) (g : B -> bool) l i : prefix_len g (skipn i (map f l)) = prefix_len (fun x => g (f x)) (skipn i l).
Proof. revert i. induction l as [|x l IH]; intros [|i]; simpl; auto. specialize (IH 0). simpl in IH. destruct (g (f x)); auto. Qed.
Lemma move_retrie tr p op : at_key tr p <> None \/ (match op with StepVal | SeekVal _ => False | _ => True end) -> move (retrie m tr) p op = move tr p op.
Proof.
  intros H. destruct op; simpl; auto.
  - unfold retrie. rewrite map_length. auto.
  - unfold retrie. rewrite prefix_len_skipn_map. auto.
  - rewrite cur_vals_retrie. destruct (at_key tr p); [rewrite map_length; auto|destruct H as [[]|[]]; auto].
  - rewrite cur_vals_retrie. destruct (at_key tr p); [rewrite prefix_len_skipn_map; auto|destruct H as [[]|[]]; auto].
Qed.
Lemma run_retrie tr p navs p' : legal_run (retrie m tr) p navs p' -> legal_run tr p navs p'.
Proof.
  intros H. remember (retrie m tr) as tr' eqn:Et. induction H as [p|p op navs p' HL HR IH]; [constructor|]. subst tr'.
  assert (HL' : legal tr p op). { unfold legal in *. rewrite at_key_retrie in HL. auto. }
  constructor; auto. rewrite move_retrie in IH; [apply IH; auto|].
  unfold legal in HL'. destruct op; auto.
Qed.

(** ** Cursors *)
Context {St C : Type}.
Variable inner : CursorOps St C K V T R.
Lemma delegate_run f st navs : forall c, c_run (delegate (T2:=T2) inner f) st c navs = c_run inner st c navs.
Proof. reflexivity. Qed.
(** If the new map_times gives the moved updates whenever the cursor is at a key and a value, the cursor
    presents the moved trie. *)
Lemma delegate_presents f st c0 tr :
  (forall c k v ts, c_key inner st c = Some k -> c_val inner st c = Some v -> c_map_times inner st c = Some ts -> f st c = Some (m k v ts)) ->
  presents inner st c0 tr -> presents (delegate inner f) st c0 (retrie m tr).
Proof.
  intros Hf HP navs p HR. destruct (HP navs p (run_retrie _ _ _ _ HR)) as (c & E & O). exists c. rewrite delegate_run. split; auto.
  unfold c_observe, observation in *. rewrite at_key_retrie, at_val_retrie. simpl.
  destruct (c_get_key inner st c) as [[k|]|]; [|destruct (c_key_valid inner st c) as [[|]|]; try discriminate; destruct (at_key tr p); [discriminate|auto]|discriminate].
  destruct (c_key_valid inner st c) as [kv|]; [|discriminate].
  destruct (c_key inner st c) as [k'|] eqn:Ek; [|discriminate]. destruct (c_get_val inner st c) as [[v|]|]; [| |discriminate].
  - destruct (c_val_valid inner st c) as [vv|]; [|discriminate]. destruct (eqb_spec k k') as [<-|]; simpl in O |- *; [|discriminate].
    destruct kv; [|discriminate]. destruct (c_val inner st c) as [v'|] eqn:Ev; [|discriminate].
    destruct (c_map_times inner st c) as [ts|] eqn:Et; [|discriminate]. rewrite (Hf c k v' ts Ek Ev Et).
    destruct (eqb_spec v v') as [<-|]; simpl in O |- *; [|discriminate]. destruct vv; [|discriminate].
    destruct (at_key tr p) as [k0|] eqn:Ek0; [|discriminate]. destruct (at_val tr p) as [v0|] eqn:Ev0; [|discriminate]. inversion O; subst.
    rewrite (at_times_retrie tr p k0 v0 Ek0 Ev0). auto.
  - destruct (c_val_valid inner st c) as [vv|]; [|discriminate]. destruct (eqb k k' && kv); [|discriminate]. destruct vv; [discriminate|].
    destruct (at_key tr p) as [k0|]; [|discriminate]. destruct (at_val tr p); [discriminate|]. inversion O. auto.
Qed.
End Retimed.

Section Flat.
Context {K V T T2 R : Type} {OK : Ord K} {OV : Ord V} {TT : Time T} {TT2 : Time T2} {DR : Diff R}.
(** moving each update by itself *)
Lemma flat_retrie (g : K -> V -> T -> option T2) (tr : trie K V T R) :
  flat (retrie (fun k v ts => flat_map (fun u => match g k v (fst u) with Some x => [(x, snd u)] | None => [] end) ts) tr) =
  flat_map (fun u => match g (fst (fst (fst u))) (snd (fst (fst u))) (snd (fst u)) with Some x => [(fst (fst u), x, snd u)] | None => [] end) (flat tr).
Proof.
  unfold flat, retrie. induction tr as [|[k vs] tr IH]; auto. cbn [map flat_map fst snd]. rewrite flat_map_app, IH. f_equal. clear.
  induction vs as [|[v ts] vs IH]; auto. cbn [map flat_map fst snd]. rewrite flat_map_app, IH. f_equal. clear.
  induction ts as [|[t r] ts IH]; auto. cbn [map flat_map fst snd]. rewrite map_app, IH. f_equal. destruct (g k v t); auto.
Qed.
End Flat.

Section Frontiers.
Context {T T2 : Type} {TT : Time T} {TT2 : Time T2}.
Variable rf : RefinesOps T T2. Hypothesis HR : refines rf.
Lemma beyond_inner F u : beyond (map (to_inner rf) F) u <-> beyond F (to_outer rf u).
Proof.
  destruct HR as (HG & _). induction F as [|f F IH]; [split; intros H; destruct (beyond_nil _ H)|].
  cbn [map]. rewrite !beyond_cons, IH, HG. tauto.
Qed.
Lemma beyond_outer F u : beyond F u -> beyond (map (to_outer rf) F) (to_outer rf u).
Proof.
  destruct HR as (_ & _ & HM). induction F as [|f F IH]; [intros H; destruct (beyond_nil _ H)|].
  cbn [map]. rewrite !beyond_cons. intros [H|H]; auto.
Qed.
Lemma map_outer_inner F : map (to_outer rf) (map (to_inner rf) F) = F.
Proof. destruct HR as (_ & HI & _). rewrite map_map. rewrite <- (map_id F) at 2. apply map_ext. auto. Qed.
End Frontiers.
