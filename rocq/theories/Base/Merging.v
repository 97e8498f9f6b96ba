(** Merging two consolidated lists. *)
From Verif Require Export Base.Collections.

Section Merge2.
Context {A R : Type} {OA : Ord A} {DR : Diff R}.
Implicit Types l : list (A * R).

Fixpoint merge2 l1 : list (A * R) -> list (A * R) :=
  match l1 with
  | [] => fun l2 => l2
  | (a1, r1) :: l1' =>
      fix aux l2 :=
        match l2 with
        | [] => (a1, r1) :: l1'
        | (a2, r2) :: l2' =>
            match cmp a1 a2 with
            | Lt => (a1, r1) :: merge2 l1' l2
            | Gt => (a2, r2) :: aux l2'
            | Eq => if is_zero (dplus r1 r2) then merge2 l1' l2' else (a1, dplus r1 r2) :: merge2 l1' l2'
            end
        end
  end.

Arguments merge2 : simpl never.

Lemma merge2_nil_r l : merge2 l [] = l.
Proof. destruct l as [|[? ?] ?]; reflexivity. Qed.

Lemma merge2_cons a1 r1 l1 a2 r2 l2 :
  merge2 ((a1, r1) :: l1) ((a2, r2) :: l2) =
  match cmp a1 a2 with
  | Lt => (a1, r1) :: merge2 l1 ((a2, r2) :: l2)
  | Gt => (a2, r2) :: merge2 ((a1, r1) :: l1) l2
  | Eq => if is_zero (dplus r1 r2) then merge2 l1 l2 else (a1, dplus r1 r2) :: merge2 l1 l2
  end.
Proof. reflexivity. Qed.

(** Induction on both lists at once. *)
Lemma merge2_ind (P : list (A * R) -> list (A * R) -> Prop) :
  (forall l2, P [] l2) -> (forall l1, P l1 []) ->
  (forall a1 r1 l1 a2 r2 l2, (cmp a1 a2 = Lt -> P l1 ((a2, r2) :: l2)) ->
     (cmp a1 a2 = Gt -> P ((a1, r1) :: l1) l2) -> (cmp a1 a2 = Eq -> P l1 l2) ->
     P ((a1, r1) :: l1) ((a2, r2) :: l2)) -> forall l1 l2, P l1 l2.
Proof.
  intros H1 H2 H3. induction l1 as [|[a1 r1] l1 IH1]; auto.
  induction l2 as [|[a2 r2] l2 IH2]; auto.
Qed.

Lemma merge2_weight l1 l2 : same_weights (merge2 l1 l2) (l1 ++ l2).
Proof.
  revert l1 l2; apply merge2_ind.
  - intros; apply same_weights_refl.
  - intros l1 a. rewrite merge2_nil_r, app_nil_r; auto.
  - intros a1 r1 l1 a2 r2 l2 HL HG HE a. rewrite merge2_cons.
    destruct (cmp a1 a2) eqn:E.
    + specialize (HE eq_refl a). apply cmp_eq in E; subst a2. simpl app.
      rewrite (weight_cons (a1, r1) (l1 ++ _)), !weight_app, (weight_cons (a1, r2) l2); simpl.
      rewrite weight_app in HE.
      destruct (is_zero (dplus r1 r2)) eqn:Ez.
      * rewrite HE. apply is_zero_spec in Ez. destruct (eqb a1 a); auto.
        rewrite (dplus_left_comm r1), <- (dplus_assoc r1), Ez, dplus_0_l; auto.
      * rewrite weight_cons; simpl. rewrite HE. destruct (eqb a1 a); auto.
        rewrite (dplus_left_comm (weight l1 a)), <- !dplus_assoc; auto.
    + rewrite weight_cons, HL by auto. simpl app. rewrite (weight_cons _ (l1 ++ _)); auto.
    + rewrite weight_cons, HG by auto. simpl app. rewrite (weight_cons _ (l1 ++ (a2, r2) :: l2)), !weight_app.
      rewrite weight_cons, weight_app, (weight_cons (a2, r2) l2); simpl.
      destruct (eqb a1 a), (eqb a2 a); auto. rewrite (dplus_left_comm r2), (dplus_left_comm (weight l1 a)); auto.
      apply dplus_left_comm.
Qed.

Lemma merge2_keys l1 l2 : forall x, In x (map fst (merge2 l1 l2)) -> In x (map fst l1) \/ In x (map fst l2).
Proof.
  revert l1 l2; refine (merge2_ind _ _ _ _).
  - intros; auto.
  - intros l1 x; rewrite merge2_nil_r; auto.
  - intros a1 r1 l1 a2 r2 l2 HL HG HE x. rewrite merge2_cons. destruct (cmp a1 a2) eqn:E.
    + destruct (is_zero _).
      * intros H; apply HE in H; simpl; tauto.
      * intros [H|H]; [simpl in *; tauto | apply HE in H; simpl; tauto].
    + intros [H|H]; [simpl in *; tauto | apply HL in H; auto; simpl in *; tauto].
    + intros [H|H]; [simpl in *; tauto | apply HG in H; auto; simpl in *; tauto].
Qed.

Lemma merge2_lower a l1 l2 : Forall (fun y => lt a (fst y)) l1 -> Forall (fun y => lt a (fst y)) l2 ->
  Forall (fun y => lt a (fst y)) (merge2 l1 l2).
Proof.
  rewrite !Forall_forall. intros H1 H2 x Hx. apply (in_map fst) in Hx. apply merge2_keys in Hx as [Hx|Hx];
  apply in_map_iff in Hx as [y [E Hy]]; rewrite <- E; auto.
Qed.

Lemma consolidated_tail x l : consolidated (x :: l) -> consolidated l.
Proof. intros H; apply consolidated_cons_inv in H; tauto. Qed.

Lemma merge2_consolidated l1 l2 : consolidated l1 -> consolidated l2 -> consolidated (merge2 l1 l2).
Proof.
  revert l1 l2; refine (merge2_ind _ _ _ _); auto.
  - intros l1 H _; rewrite merge2_nil_r; auto.
  - intros a1 r1 l1 a2 r2 l2 HL HG HE C1 C2. rewrite merge2_cons.
    pose proof (consolidated_cons_inv _ _ C1) as I1. pose proof (consolidated_cons_inv _ _ C2) as I2.
    simpl in I1, I2. destruct I1 as [D1 [Z1 F1]], I2 as [D2 [Z2 F2]].
    destruct (cmp a1 a2) eqn:E.
    + apply cmp_eq in E; subst a2. destruct (is_zero (dplus r1 r2)) eqn:Ez; auto.
      apply consolidated_cons; simpl; auto using merge2_lower.
    + apply consolidated_cons; simpl; auto. apply merge2_lower; auto. constructor; auto.
      eapply Forall_impl; [|exact F2]. intros y; apply lt_trans; auto.
    + assert (lt a2 a1) as Hlt by (apply cmp_Gt_lt; auto).
      apply consolidated_cons; simpl; auto. apply merge2_lower; auto. constructor; auto.
      eapply Forall_impl; [|exact F1]. intros y; apply lt_trans; auto.
Qed.

Lemma merge2_length l1 l2 : length (merge2 l1 l2) <= length l1 + length l2.
Proof.
  revert l1 l2; refine (merge2_ind _ _ _ _).
  - intros; simpl; auto.
  - intros; rewrite merge2_nil_r; simpl; lia.
  - intros a1 r1 l1 a2 r2 l2 HL HG HE. rewrite merge2_cons. destruct (cmp a1 a2) eqn:E.
    + specialize (HE eq_refl). destruct (is_zero _); simpl; lia.
    + specialize (HL eq_refl). simpl in *; lia.
    + specialize (HG eq_refl). simpl in *; lia.
Qed.
End Merge2.
#[global] Arguments merge2 : simpl never.
