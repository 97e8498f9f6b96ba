(** The cursor tactic satisfies what the join operator asks of a tactic. *)
From Verif Require Export Spec.JoinOpSpec Proofs.ReadableP Proofs.DeferredP Proofs.JoinTimesP.

Section Neutral.
Context {K V1 V2 D T R1 R2 R3 : Type} {OK : Ord K} {TT : Time T} {D1 : Diff R1} {D2 : Diff R2} {D3 : Diff R3} {MU : Multiply R1 R2 R3}.
Variable result : K -> V1 -> V2 -> list D.
Lemma join_pair_advance_r (u1 : K * V1 * T * R1) (u2 : K * V2 * T * R2) m : tle m (snd (fst u1)) = true ->
  join_pair (MU:=MU) result u1 (fst (fst u2), join (snd (fst u2)) m, snd u2) = join_pair (MU:=MU) result u1 u2.
Proof.
  destruct u1 as [[[k1 v1] t1] r1], u2 as [[[k2 v2] t2] r2]. simpl. intros H. replace (join t1 (join t2 m)) with (join t1 t2); auto.
  rewrite (join_comm t1 (join t2 m)), join_absorb_lower by exact H. apply join_comm.
Qed.
Lemma join_pair_advance_l (u1 : K * V1 * T * R1) (u2 : K * V2 * T * R2) m : tle m (snd (fst u2)) = true ->
  join_pair (MU:=MU) result (fst (fst u1), join (snd (fst u1)) m, snd u1) u2 = join_pair (MU:=MU) result u1 u2.
Proof.
  destruct u1 as [[[k1 v1] t1] r1], u2 as [[[k2 v2] t2] r2]. simpl. intros H. replace (join (join t1 m) t2) with (join t1 t2); auto.
  symmetry. apply join_absorb_lower, H.
Qed.
Lemma flat_map_ext_in {A B} (f g : A -> list B) l : (forall a, In a l -> f a = g a) -> flat_map f l = flat_map g l.
Proof. induction l as [|a l IH]; simpl; intros H; auto. rewrite (H a), IH; auto. Qed.
Lemma flat_map_map {A B C} (f : A -> B) (g : B -> list C) l : flat_map g (map f l) = flat_map (fun a => g (f a)) l.
Proof. induction l; simpl; auto. rewrite IHl. auto. Qed.
Lemma join_advance_r (a : list (K * V1 * T * R1)) (b : list (K * V2 * T * R2)) m : Forall (fun u => tle m (snd (fst u)) = true) a ->
  join_updates (MU:=MU) result a (map (fun u => (fst (fst u), join (snd (fst u)) m, snd u)) b) = join_updates (MU:=MU) result a b.
Proof.
  intros H. unfold join_updates. apply flat_map_ext_in. intros u1 Hu. rewrite flat_map_map. apply flat_map_ext_in. intros u2 _.
  rewrite Forall_forall in H. apply join_pair_advance_r; auto.
Qed.
Lemma join_advance_l (a : list (K * V1 * T * R1)) (b : list (K * V2 * T * R2)) m : Forall (fun u => tle m (snd (fst u)) = true) b ->
  join_updates (MU:=MU) result (map (fun u => (fst (fst u), join (snd (fst u)) m, snd u)) a) b = join_updates (MU:=MU) result a b.
Proof.
  intros H. unfold join_updates. rewrite flat_map_map. apply flat_map_ext_in. intros u1 Hu. apply flat_map_ext_in. intros u2 H2.
  rewrite Forall_forall in H. apply join_pair_advance_l; auto.
Qed.
End Neutral.

Section Storage.
Context {St1 C1 St2 C2 K V1 V2 D T R1 R2 R3 : Type} {OK : Ord K} {OV1 : Ord V1} {OV2 : Ord V2} {OD : Ord D} {TT : Time T}
  {D1 : Diff R1} {D2 : Diff R2} {D3 : Diff R3} {MU : Multiply R1 R2 R3}.
Variable ops1 : CursorOps St1 C1 K V1 T R1. Variable ops2 : CursorOps St2 C2 K V2 T R2.
Variable result : K -> V1 -> V2 -> list D. Variable p : nat. Variable alloc : nat -> nat.
Notation work := (DeferredIter St1 C1 St2 C2 D T R3).
Lemma di_loop_storage vfuel meet1 meet2 : forall fuel (d d' : work) x,
  di_loop ops1 ops2 result p alloc fuel vfuel meet1 meet2 d = Some (d', x) ->
  di_storage1 d' = di_storage1 d /\ di_storage2 d' = di_storage2 d.
Proof.
  induction fuel as [|fuel IH]; intros d d' x E; cbn [di_loop] in E; destruct (di_ready d) as [|rc rs] eqn:Er; try (inversion E; subst; auto; fail);
    destruct (c_get_key ops1 _ _) as [[k1|]|]; try discriminate; destruct (c_get_key ops2 _ _) as [[k2|]|]; try discriminate; try (inversion E; subst; auto; fail).
  destruct (cmp k1 k2).
  - destruct (el_load ops1 _ _ _ _) as [[c1 el1]|] eqn:L1; [|discriminate]. destruct (el_load ops2 _ _ _ _) as [[c2 el2]|] eqn:L2; [|discriminate].
    destruct (think el1 el2) as [calls|] eqn:Et; [|discriminate]. destruct (push_all _ _ _ _) as [b|] eqn:Ep; [|discriminate].
    destruct (c_step_key ops1 _ c1) as [c1'|]; [|discriminate]. destruct (c_step_key ops2 _ c2) as [c2'|]; [|discriminate].
    destruct (extract_all _ _ _ _) as [[b' ready]|] eqn:Ex; [|discriminate]. apply IH in E. exact E.
  - destruct (c_seek_key ops1 _ _ _) as [c1|]; [|discriminate]. apply IH in E. exact E.
  - destruct (c_seek_key ops2 _ _ _) as [c2|]; [|discriminate]. apply IH in E. exact E.
Qed.
Lemma di_pop_storage (d d' : work) o : di_pop d = (d', o) -> di_storage1 d' = di_storage1 d /\ di_storage2 d' = di_storage2 d.
Proof. unfold di_pop. destruct (di_ready d); intros E; inversion E; auto. Qed.
Lemma di_next_storage fuel vfuel (d d' : work) o : di_next ops1 ops2 result p alloc fuel vfuel d = Some (d', o) ->
  di_storage1 d' = di_storage1 d /\ di_storage2 d' = di_storage2 d.
Proof.
  unfold di_next. destruct (di_ready d) eqn:Er.
  2:{ intros E. inversion E. eapply di_pop_storage; eauto. }
  destruct (di_done d); [intros E; inversion E; subst; auto|].
  destruct (di_loop _ _ _ _ _ _ _ _ _ d) as [[d1 x]|] eqn:El; [|discriminate]. apply di_loop_storage in El as [E1 E2]. destruct x.
  - destruct (finish_all _ _ _ _) as [[b ready]|] eqn:Ef; [|discriminate]. intros E. inversion E as [E']. apply di_pop_storage in E'. simpl in E'. rewrite <- E1, <- E2. exact E'.
  - intros E. inversion E as [E']. apply di_pop_storage in E'. rewrite <- E1, <- E2. exact E'.
Qed.

End Storage.

Section Tactic.
Context {B1 M1 C1 B2 M2 C2 K V1 V2 D T R1 R2 R3 : Type} {OK : Ord K} {OV1 : Ord V1} {OV2 : Ord V2} {OD : Ord D} {TT : Time T}
  {D1 : Diff R1} {D2 : Diff R2} {D3 : Diff R3} {MU : Multiply R1 R2 R3}.
Variable ops1 : BatchOps B1 M1 T. Variable contents1 : B1 -> list (K * V1 * T * R1). Variable laws1 : BatchLaws (D:=K*V1) ops1 contents1.
Variable ops2 : BatchOps B2 M2 T. Variable contents2 : B2 -> list (K * V2 * T * R2). Variable laws2 : BatchLaws (D:=K*V2) ops2 contents2.
Variable cops1 : CursorOps B1 C1 K V1 T R1. Variable new1 : C1.
Variable cops2 : CursorOps B2 C2 K V2 T R2. Variable new2 : C2.
Variable result : K -> V1 -> V2 -> list D.
Variable p : nat. Variable alloc : nat -> nat.
Notation tactic := (cursor_tactic cops1 new1 (b_len ops1) cops2 new2 (b_len ops2) result p alloc).
Notation work := (join_work (B1:=B1) (C1:=C1) (B2:=B2) (C2:=C2) (D:=D) (T:=T) (R3:=R3)).

Lemma yields_hands_out fuel (d : work) cs : yields (cl_ops cops1) (cl_ops cops2) result p alloc fuel fuel d cs ->
  work_fuel (b_len ops1) (b_len ops2) d = fuel -> hands_out tactic d cs.
Proof.
  induction 1 as [d d' E|d d' c cs E HY IH]; intros Hf.
  - econstructor. cbn. rewrite Hf. exact E.
  - econstructor; [cbn; rewrite Hf; exact E|]. apply IH. rewrite <- Hf. apply di_next_storage in E as [E1 E2]. unfold work_fuel. f_equal; f_equal; [exact E1|exact E2].
Qed.

Hypothesis Hp : 1 <= p.
Hypothesis HR1 : readable ops1 contents1 laws1 cops1 new1.
Hypothesis HR2 : readable ops2 contents2 laws2 cops2 new2.

Lemma advance_none {K' V' R'} (l : list (K' * V' * T * R')) : map (fun u => (fst (fst u), advance_opt None (snd (fst u)), snd u)) l = l.
Proof. induction l as [|[[[k v] t] r] l IH]; simpl; auto. simpl in IH. rewrite IH. auto. Qed.
Lemma flat_in_late {K' V' R'} {OK' : Ord K'} {OV' : Ord V'} {DR' : Diff R'} m (trs : list (trie K' V' T R')) :
  Forall (fun u => tle m (snd (fst u)) = true) (flat_map flat trs) -> Forall (fun u => tle m (snd (fst u)) = true) (flat (union_trie trs)).
Proof.
  rewrite !Forall_forall. intros H [[[k v] t] r] Hu. unfold flat, union_trie in Hu.
  apply in_flat_map in Hu as (e & He & Hu). apply in_map_iff in He as (k0 & <- & _). cbn [fst snd] in Hu.
  apply in_flat_map in Hu as (e2 & He & Hu). apply in_map_iff in He as (v0 & <- & _). cbn [fst snd] in Hu.
  apply in_map_iff in Hu as ([t0 r0] & E & Hu). inversion E; subst. apply in_flat_map in Hu as (tr & Htr & Hu).
  apply (H (k, v, t, r)). apply in_flat_map. exists tr. split; auto.
  unfold times_under in Hu. apply in_flat_map in Hu as ([v1 l] & Hv & Hu). cbn [fst snd] in Hu.
  destruct (eqb_spec v1 v) as [->|]; [|contradiction].
  unfold vals_under in Hv. apply in_flat_map in Hv as ([k1 vs] & Hk & Hv). cbn [fst snd] in Hv. destruct (eqb_spec k1 k) as [->|]; [|contradiction].
  unfold flat. apply in_flat_map. exists (k, vs). split; auto. apply in_flat_map. exists (v, l). split; auto.
  apply in_map_iff. exists (t, r). auto.
Qed.

Lemma tactic_ok : joins ops1 contents1 laws1 ops2 contents2 laws2 tactic result.
Proof.
  intros bs1 bs2 fresh1 m O1 O2 HF.
  destruct (cursor_list_no_seek ops1 contents1 laws1 cops1 new1 HR1 bs1 O1) as (cl1 & E1 & P1).
  destruct (cursor_list_no_seek ops2 contents2 laws2 cops2 new2 HR2 bs2 O2) as (cl2 & E2 & P2).
  set (tr1 := union_trie (tries contents1 bs1)) in *. set (tr2 := union_trie (tries contents2 bs2)) in *.
  set (fuel := sum_len (b_len ops1) bs1 + sum_len (b_len ops2) bs2).
  destruct (union_length contents1 bs1) as [L1 L1']. destruct (union_length contents2 bs2) as [L2 L2'].
  rewrite <- (sum_len_contents ops1 contents1 laws1 bs1 O1) in L1, L1'. rewrite <- (sum_len_contents ops2 contents2 laws2 bs2 O2) in L2, L2'.
  destruct (deferred_ok (MU:=MU) (cl_ops cops1) (cl_ops cops2) result p alloc tr1 tr2 cl1 bs1 cl2 bs2 fresh1 m fuel fuel Hp
    (union_sorted contents1 bs1) (union_sorted contents2 bs2)) as (cs & HY & HG & HW); auto.
  1,2: eapply Forall_impl; [|first [exact L1'|exact L2']]; cbv beta; intros; unfold fuel; lia.
  { unfold fuel, tr1, tr2. lia. }
  exists (di_prep cl1 bs1 cl2 bs2 fresh1 m), cs.
  split; [cbn; rewrite E1, E2; reflexivity|].
  split; [eapply yields_hands_out; [exact HY|reflexivity]|].
  split; [eapply Forall_impl; [|exact HG]; intros c Hc; apply Hc|].
  split; [refine (yields_fine _ _ _ _ _ m _ _ _ _ HY (di_prep_fine _ _ _ _ _ _))|].
  eapply same_weights_trans; [exact HW|].
  assert (N : join_updates (MU:=MU) result
      (map (fun u => (fst (fst u), advance_opt (if fresh1 then None else Some m) (snd (fst u)), snd u)) (flat tr1))
      (map (fun u => (fst (fst u), advance_opt (if fresh1 then Some m else None) (snd (fst u)), snd u)) (flat tr2)) =
      join_updates (MU:=MU) result (flat tr1) (flat tr2)).
  { destruct fresh1; rewrite advance_none.
    - apply join_advance_r. apply flat_in_late. unfold tries. rewrite flat_map_map. erewrite flat_map_ext_in; [exact HF|]. intros b _. apply flat_trie_of.
    - apply join_advance_l. apply flat_in_late. unfold tries. rewrite flat_map_map. erewrite flat_map_ext_in; [exact HF|]. intros b _. apply flat_trie_of. }
  rewrite N. eapply same_weights_trans; [apply join_updates_congr_l, union_weights|]. apply join_updates_congr_r, union_weights.
Qed.
End Tactic.
