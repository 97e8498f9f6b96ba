(** Proofs about the meaning of scope trees: operators see nothing of a collection but its weights, look
    only backward in time, and so a program has at most one meaning. *)
From Verif Require Export Model.RenderM Base.Collections Proofs.SummaryP.
Local Open Scope nat_scope.

(** ** Lists that agree where it matters *)
Section Agree.
Context {A R S : Type} {OA : Ord A} {DR : Diff R} {DS : Diff S}.
Lemma lsum_local (f : A -> R -> S) (p : A -> bool) (l1 l2 : list (A * R)) :
  (forall a, f a dzero = dzero) -> (forall a r1 r2, f a (dplus r1 r2) = dplus (f a r1) (f a r2)) ->
  (forall a r, p a = false -> f a r = dzero) -> (forall a, p a = true -> weight l1 a = weight l2 a) -> lsum f l1 = lsum f l2.
Proof.
  intros H0 Hp Hz Hw.
  assert (E : forall l, lsum f l = lsum f (filter (fun x => p (fst x)) l)).
  { induction l as [|x l IH]; simpl; auto. unfold lsum in *; simpl. destruct (p (fst x)) eqn:Ex; simpl; rewrite IH; auto.
    rewrite Hz, dplus_0_l; auto. }
  rewrite (E l1), (E l2). apply lsum_same_weights; auto. intros a. rewrite !weight_filter. destruct (p a) eqn:Ea; auto.
Qed.
End Agree.

Section Times.
Context {D T R : Type} {OD : Ord D} {TT : Time T} {DR : Diff R}.
Local Notation lst := (list (D * T * R)).
Definition agree (P : T -> Prop) (c1 c2 : lst) : Prop := forall d t, P t -> weight (A:=D*T) c1 (d, t) = weight (A:=D*T) c2 (d, t).
Definition down (P : T -> Prop) : Prop := forall t t', tle t t' = true -> P t' -> P t.

Lemma agree_refl P c : agree P c c. Proof. intros d t _; auto. Qed.
Lemma agree_sym P c1 c2 : agree P c1 c2 -> agree P c2 c1. Proof. intros H d t Ht; symmetry; auto. Qed.
Lemma agree_trans P c1 c2 c3 : agree P c1 c2 -> agree P c2 c3 -> agree P c1 c3. Proof. intros H1 H2 d t Ht; rewrite H1; auto. Qed.
Lemma agree_all c1 c2 : agree (fun _ => True) c1 c2 <-> same_weights (A:=D*T) c1 c2.
Proof. split; [intros H [d t]; apply H; auto|intros H d t _; apply H]. Qed.
Lemma same_agree P c1 c2 : same_weights (A:=D*T) c1 c2 -> agree P c1 c2. Proof. intros H d t _; apply H. Qed.
Lemma agree_app P c1 c1' c2 c2' : agree P c1 c1' -> agree P c2 c2' -> agree P (c1 ++ c2) (c1' ++ c2').
Proof. intros H1 H2 d t Ht. rewrite !weight_app, H1, H2; auto. Qed.
Lemma agree_acc P c1 c2 d t : down P -> agree P c1 c2 -> P t -> acc c1 d t = acc c2 d t.
Proof.
  intros HP H Ht. rewrite !acc_lsum. apply (lsum_local _ (fun a => tle (snd a) t)).
  - intros [d' t']; simpl. destruct (_ && _); auto.
  - intros [d' t'] r1 r2; simpl. destruct (_ && _); auto. rewrite dplus_0_l; auto.
  - intros [d' t'] r E; simpl in *. rewrite E, andb_false_r; auto.
  - intros [d' t'] E; simpl in *. apply H. eapply HP; eauto.
Qed.
End Times.

(** Accumulations determine updates. *)
Section Inversion.
Context {D T R : Type} {OD : Ord D} {TT : Time T} {DR : Diff R} {AR : Abelian R}.
Local Notation lst := (list (D * T * R)).
Definition negated (c : lst) : lst := map (fun u => (fst u, dneg (snd u))) c.
Lemma dneg_zero : dneg (R:=R) dzero = dzero.
Proof. rewrite <- (dplus_0_r (dneg dzero)). apply dneg_l. Qed.
Lemma dneg_plus (a b : R) : dneg (dplus a b) = dplus (dneg a) (dneg b).
Proof.
  assert (U : forall x y : R, dplus x y = dzero -> dneg y = x).
  { intros x y H. rewrite <- (dplus_0_l (dneg y)), <- H, dplus_assoc, (dplus_comm y), dneg_l, dplus_0_r. auto. }
  apply U. rewrite dplus_swap4, !dneg_l, dplus_0_l; auto.
Qed.
Lemma weight_negated (c : lst) a : weight (A:=D*T) (negated c) a = dneg (weight (A:=D*T) c a).
Proof.
  induction c as [|u c IH]; simpl; [rewrite !weight_nil, dneg_zero; auto|]. rewrite !weight_cons'. simpl. rewrite IH, dneg_plus.
  f_equal. destruct (eqb _ _); auto. rewrite dneg_zero; auto.
Qed.
Lemma acc_negated (c : lst) d t : acc (negated c) d t = dneg (acc c d t).
Proof.
  induction c as [|u c IH]; [simpl; rewrite !acc_nil, dneg_zero; auto|]. simpl. rewrite !acc_cons'. simpl. rewrite IH, dneg_plus.
  f_equal. destruct (_ && _); auto. rewrite dneg_zero; auto.
Qed.
Lemma cancel (a b : R) : dplus a (dneg b) = dzero -> a = b.
Proof. intros H. rewrite <- (dplus_0_r a), <- (dneg_l b), <- dplus_assoc, H, dplus_0_l. auto. Qed.

(* the updates of a record strictly before a time *)
Definition earlier (t : T) (x : D * T) : bool := tle (snd x) t && negb (eqb (snd x) t).
Lemma acc_zero_weight (c : lst) : forall n t d, length (filter (fun u => earlier t (fst u)) c) <= n ->
  (forall d t', tle t' t = true -> acc c d t' = dzero) -> weight (A:=D*T) c (d, t) = dzero.
Proof.
  induction n as [n IH] using lt_wf_ind. intros t d Hn Ha.
  assert (Hb : forall d' t', earlier t (d', t') = true -> weight (A:=D*T) c (d', t') = dzero).
  { intros d' t' He. destruct (in_dec (fun x y => eq_dec (A:=D*T) x y) (d', t') (map fst c)) as [Hi|Hi]; [|apply weight_notin; auto].
    unfold earlier in He; simpl in He. apply andb_true_iff in He as (He1 & He2).
    apply (IH (length (filter (fun u => earlier t' (fst u)) c))); auto.
    - eapply Nat.lt_le_trans; [|exact Hn]. clear IH Hn Ha.
      assert (Hsub : forall u, earlier t' (fst u) = true -> earlier t (fst (u : D * T * R)) = true).
      { intros u. unfold earlier. rewrite !andb_true_iff. intros (H1 & H2). split; [eapply tle_trans; eauto|].
        destruct (eqb_spec (snd (fst u)) t) as [Eu|]; auto. rewrite Eu in H1. apply negb_true_iff in He2.
        assert (t = t') by (apply tle_antisym; auto). subst. rewrite eqb_refl in He2. discriminate. }
      induction c as [|u c0 IHc]; simpl in *; [tauto|]. 
      assert (Hle : length (filter (fun u => earlier t' (fst u)) c0) <= length (filter (fun u => earlier t (fst u)) c0)).
      { clear IHc Hi. induction c0 as [|x c0 IH0]; simpl; auto. destruct (earlier t' (fst x)) eqn:E; [rewrite (Hsub _ E); simpl; lia|]. destruct (earlier t (fst x)); simpl; lia. }
      destruct Hi as [Hi|Hi].
      + assert (earlier t' (fst u) = false) as ->. { unfold earlier. rewrite Hi; simpl. rewrite eqb_refl, andb_false_r; auto. }
        assert (earlier t (fst u) = true) as ->. { unfold earlier. rewrite Hi; simpl. rewrite He1, He2; auto. }
        simpl. lia.
      + specialize (IHc Hi). destruct (earlier t' (fst u)) eqn:E; [rewrite (Hsub _ E); simpl; lia|]. destruct (earlier t (fst u)); simpl; lia.
    - intros d0 t0 H0. apply Ha. eapply tle_trans; eauto. }
  rewrite <- (Ha d t (tle_refl t)). rewrite acc_lsum.
  assert (E : lsum (fun (a : D * T) r => if eqb (fst a) d && tle (snd a) t then r else dzero) c =
              dplus (weight (A:=D*T) c (d, t)) (lsum (fun (a : D * T) r => if eqb (fst a) d && earlier t a then r else dzero) c)).
  { clear. induction c as [|u c IH]; [rewrite weight_nil; unfold lsum; simpl; rewrite dplus_0_l; auto|].
    unfold lsum in *; simpl. rewrite weight_cons', IH, dplus_swap4. f_equal.
    destruct u as [[d' t'] r]; simpl. unfold earlier; simpl.
    destruct (eqb_spec (d', t') (d, t)) as [E|E].
    - inversion E; subst. rewrite !eqb_refl, tle_refl. simpl. rewrite dplus_0_r; auto.
    - rewrite dplus_0_l. destruct (eqb_spec d' d) as [->|]; simpl; auto. destruct (eqb_spec t' t) as [->|]; [congruence|]. rewrite andb_true_r; auto. }
  rewrite E. symmetry. rewrite <- (dplus_0_r (weight _ _)) at 2. f_equal.
  rewrite (lsum_local _ (fun a => earlier t a) c []); auto.
  - intros a; destruct (_ && _); auto.
  - intros a r1 r2; destruct (_ && _); auto. rewrite dplus_0_l; auto.
  - intros a r Ea. rewrite Ea, andb_false_r; auto.
  - intros [d' t'] Ea. rewrite weight_nil. auto.
Qed.
Lemma acc_agree (P : T -> Prop) (c1 c2 : lst) : down P -> (forall d t, P t -> acc c1 d t = acc c2 d t) -> agree P c1 c2.
Proof.
  intros HP H d t Ht. apply cancel. rewrite <- weight_negated, <- weight_app.
  apply (acc_zero_weight _ _ t d (Nat.le_refl _)). intros d' t' Hl. rewrite acc_app, acc_negated, H by (eapply HP; eauto).
  rewrite dplus_comm. apply dneg_l.
Qed.
End Inversion.
