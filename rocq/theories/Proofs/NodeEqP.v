(** Comparing nodes by all they show. *)
From Verif Require Export Model.ScopeIrM.
Local Open Scope nat_scope.

Lemma term_ind' (P : Term -> Prop)
  (H1 : forall i, P (TVar i)) (H2 : forall i, P (TBound i)) (H3 : forall n, P (TInt n))
  (H4 : forall ts, Forall P ts -> P (TTuple ts)) (H5 : forall ts, Forall P ts -> P (TList ts))
  (H6 : forall t, P t -> P (TSpread t)) (H7 : forall t i, P t -> P (TProj t i)) (H8 : forall t u, P t -> P u -> P (TInject t u))
  (H9 : forall t ts d, P t -> Forall P ts -> (forall u, d = Some u -> P u) -> P (TCase t ts d))
  (H10 : forall a b c, P a -> P b -> P c -> P (TFold a b c)) (H11 : forall a b c, P a -> P b -> P c -> P (TIf a b c))
  (H12 : forall o t, P t -> P (TUnary o t)) (H13 : forall o a b, P a -> P b -> P (TBinary o a b))
  (H14 : forall ts, Forall P ts -> P (THash ts)) : forall t, P t.
Proof.
  fix go 1. assert (gos : forall ts, Forall P ts -> Forall P ts) by auto. clear gos.
  intros t. destruct t as [i|i|n|ts|ts|t|t i|t u|t ts d|a b c|a b c|o t|o a b|ts].
  - apply H1. - apply H2. - apply H3.
  - apply H4. revert ts. fix gl 1. intros [|x ts]; constructor; [apply go|apply gl].
  - apply H5. revert ts. fix gl 1. intros [|x ts]; constructor; [apply go|apply gl].
  - apply H6, go. - apply H7, go. - apply H8; apply go.
  - apply H9; [apply go| |].
    + revert ts. fix gl 1. intros [|x ts]; constructor; [apply go|apply gl].
    + intros u E. destruct d as [v|]; [|discriminate]. injection E as <-. apply go.
  - apply H10; apply go. - apply H11; apply go. - apply H12, go. - apply H13; apply go.
  - apply H14. revert ts. fix gl 1. intros [|x ts]; constructor; [apply go|apply gl].
Qed.

Definition terms_eqb : list Term -> list Term -> bool :=
  fix go (xs ys : list Term) : bool := match xs, ys with [], [] => true | x :: xs, y :: ys => term_eqb x y && go xs ys | _, _ => false end.
Lemma terms_eqb_spec xs : Forall (fun x => forall y, term_eqb x y = true <-> x = y) xs -> forall ys, terms_eqb xs ys = true <-> xs = ys.
Proof.
  induction 1 as [|x xs H _ IH]; intros [|y ys]; simpl; try (split; [discriminate|discriminate]); try tauto.
  rewrite andb_true_iff, H, IH. split; [intros (-> & ->); auto|intros [= -> ->]; auto].
Qed.
Lemma term_eqb_spec x : forall y, term_eqb x y = true <-> x = y.
Proof.
  induction x as [i|i|n|ts IH|ts IH|t IH|t i IH|t u IH1 IH2|t ts d IH1 IH2 IH3|a b c IH1 IH2 IH3|a b c IH1 IH2 IH3|o t IH|o a b IH1 IH2|ts IH] using term_ind';
    intros y; destruct y as [i'|i'|n'|ts'|ts'|t'|t' i'|t' u'|t' ts' d'|a' b' c'|a' b' c'|o' t'|o' a' b'|ts']; try (simpl; split; discriminate).
  - simpl. rewrite Nat.eqb_eq. split; congruence.
  - simpl. rewrite Nat.eqb_eq. split; congruence.
  - simpl. rewrite Z.eqb_eq. split; congruence.
  - change (terms_eqb ts ts' = true <-> TTuple ts = TTuple ts'). rewrite (terms_eqb_spec ts IH). split; congruence.
  - change (terms_eqb ts ts' = true <-> TList ts = TList ts'). rewrite (terms_eqb_spec ts IH). split; congruence.
  - simpl. rewrite IH. split; congruence.
  - simpl. rewrite andb_true_iff, IH, Nat.eqb_eq. split; [intros (-> & ->); auto|intros [= -> ->]; auto].
  - simpl. rewrite andb_true_iff, IH1, IH2. split; [intros (-> & ->); auto|intros [= -> ->]; auto].
  - change (term_eqb t t' && terms_eqb ts ts' && match d, d' with Some d, Some d' => term_eqb d d' | None, None => true | _, _ => false end = true <-> TCase t ts d = TCase t' ts' d').
    rewrite !andb_true_iff, IH1, (terms_eqb_spec ts IH2). destruct d as [d|], d' as [d'|].
    + rewrite (IH3 d eq_refl). split; [intros ((-> & ->) & ->); auto|intros [= -> -> ->]; auto].
    + split; [intros (_ & H); discriminate|discriminate].
    + split; [intros (_ & H); discriminate|discriminate].
    + split; [intros ((-> & ->) & _); auto|intros [= -> ->]; auto].
  - simpl. rewrite !andb_true_iff, IH1, IH2, IH3. split; [intros ((-> & ->) & ->); auto|intros [= -> -> ->]; auto].
  - simpl. rewrite !andb_true_iff, IH1, IH2, IH3. split; [intros ((-> & ->) & ->); auto|intros [= -> -> ->]; auto].
  - simpl. rewrite andb_true_iff, IH. split.
    + intros (-> & H). f_equal. destruct o, o'; try discriminate; auto. apply Z.eqb_eq in H. congruence.
    + intros [= -> ->]. split; auto. destruct o'; auto. apply Z.eqb_refl.
  - simpl. rewrite !andb_true_iff, IH1, IH2. split.
    + intros ((-> & ->) & H). f_equal. destruct o, o'; try discriminate; auto.
    + intros [= -> -> ->]. split; auto. destruct o'; auto.
  - change (terms_eqb ts ts' = true <-> THash ts = THash ts'). rewrite (terms_eqb_spec ts IH). split; congruence.
Qed.
Lemma projection_eqb_spec p q : projection_eqb p q = true <-> p = q.
Proof.
  unfold projection_eqb. rewrite andb_true_iff, !term_eqb_spec. destruct p, q; simpl. split; [intros (-> & ->); auto|intros [= -> ->]; auto].
Qed.
Lemma linear_eqb_spec a b : linear_eqb a b = true <-> a = b.
Proof.
  destruct a, b; simpl; try (split; discriminate); try tauto; rewrite ?projection_eqb_spec, ?term_eqb_spec; split; congruence.
Qed.
Lemma ref_eqb_spec a b : ref_eqb a b = true <-> a = b.
Proof.
  destruct a, b; simpl; try (split; discriminate); rewrite ?andb_true_iff, ?Nat.eqb_eq; split; try congruence.
  - intros (-> & ->); auto.
  - intros [= -> ->]; auto.
Qed.
Lemma list_eqb_spec {A} (f : A -> A -> bool) : (forall x y, f x y = true <-> x = y) -> forall xs ys, list_eqb f xs ys = true <-> xs = ys.
Proof.
  intros H. induction xs as [|x xs IH]; intros [|y ys]; simpl; try (split; discriminate); try tauto.
  rewrite andb_true_iff, H, IH. split; [intros (-> & ->); auto|intros [= -> ->]; auto].
Qed.
Lemma reducer_eqb_spec a b : reducer_eqb a b = true <-> a = b.
Proof. destruct a, b; simpl; split; congruence. Qed.
Lemma node_eqb_spec a b : node_eqb a b = true <-> a = b.
Proof.
  destruct a, b; simpl; try (split; discriminate);
    rewrite ?andb_true_iff, ?ref_eqb_spec, ?projection_eqb_spec, ?reducer_eqb_spec, ?String.eqb_eq, ?(list_eqb_spec _ linear_eqb_spec), ?(list_eqb_spec _ ref_eqb_spec).
  - split; [intros (-> & ->); auto|intros [= -> ->]; auto].
  - split; congruence.
  - split; congruence.
  - split; [intros ((-> & ->) & ->); auto|intros [= -> -> ->]; auto].
  - split; [intros (-> & ->); auto|intros [= -> ->]; auto].
  - split; [intros (-> & ->); auto|intros [= -> ->]; auto].
Qed.
