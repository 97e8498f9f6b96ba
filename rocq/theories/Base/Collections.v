(** Generic lemmas about weights, accumulations and canonical forms. *)
From Verif Require Export Spec.Collection.

(** ** Weights *)
Section WeightFacts.
Context {A R : Type} {OA : Ord A} {DR : Diff R}.
Implicit Types l : list (A * R).

Lemma weight_nil a : weight (R:=R) [] a = dzero.
Proof. reflexivity. Qed.

Lemma weight_cons x l a :
  weight (x :: l) a = if eqb (fst x) a then dplus (snd x) (weight l a) else weight l a.
Proof. unfold weight; simpl. destruct (eqb (fst x) a); reflexivity. Qed.

Lemma weight_cons' x l a :
  weight (x :: l) a = dplus (if eqb (fst x) a then snd x else dzero) (weight l a).
Proof. rewrite weight_cons. destruct (eqb (fst x) a); rewrite ?dplus_0_l; reflexivity. Qed.

Lemma weight_app l1 l2 a : weight (l1 ++ l2) a = dplus (weight l1 a) (weight l2 a).
Proof. unfold weight. rewrite filter_app, map_app. apply dsum_app. Qed.

Lemma weight_one x (r : R) a : weight [(x, r)] a = if eqb x a then r else dzero.
Proof. rewrite weight_cons; simpl. destruct (eqb x a); auto. apply dplus_0_r. Qed.

Lemma Permutation_filter {B} (f : B -> bool) (l1 l2 : list B) : Permutation l1 l2 -> Permutation (filter f l1) (filter f l2).
Proof.
  induction 1; simpl; auto.
  - destruct (f x); auto.
  - destruct (f x), (f y); auto. apply perm_swap.
  - eapply perm_trans; eauto.
Qed.

Lemma weight_perm l1 l2 : Permutation l1 l2 -> same_weights l1 l2.
Proof. intros H a. unfold weight. apply dsum_perm, Permutation_map, Permutation_filter, H. Qed.

Lemma weight_notin l a : ~ In a (map fst l) -> weight l a = dzero.
Proof.
  induction l as [|x l IH]; simpl; intros H; auto.
  rewrite weight_cons. destruct (eqb_spec (fst x) a); [exfalso; auto | apply IH; auto].
Qed.

Lemma same_weights_refl l : same_weights l l.
Proof. intros a; reflexivity. Qed.
Lemma same_weights_sym l1 l2 : same_weights l1 l2 -> same_weights l2 l1.
Proof. intros H a; symmetry; apply H. Qed.
Lemma same_weights_trans l1 l2 l3 : same_weights l1 l2 -> same_weights l2 l3 -> same_weights l1 l3.
Proof. intros H1 H2 a; rewrite H1; apply H2. Qed.
Lemma same_weights_app l1 l1' l2 l2' :
  same_weights l1 l1' -> same_weights l2 l2' -> same_weights (l1 ++ l2) (l1' ++ l2').
Proof. intros H1 H2 a; rewrite !weight_app, H1, H2; reflexivity. Qed.

Lemma weight_filter_zero l : same_weights (filter (fun x => negb (is_zero (snd x))) l) l.
Proof.
  intros a. induction l as [|x l IH]; simpl; auto.
  destruct (is_zero (snd x)) eqn:E; simpl; rewrite !weight_cons; destruct (eqb (fst x) a); rewrite ?IH; auto.
  apply is_zero_spec in E; rewrite E, dplus_0_l; reflexivity.
Qed.

(** ** Additive functionals only see weights *)
Section Linear.
Context {S : Type} {DS : Diff S}.
Variable f : A -> R -> S.
Hypothesis f_zero : forall a, f a dzero = dzero.
Hypothesis f_plus : forall a r1 r2, f a (dplus r1 r2) = dplus (f a r1) (f a r2).

Definition lsum (l : list (A * R)) : S := dsum (map (fun x => f (fst x) (snd x)) l).

Lemma lsum_app l1 l2 : lsum (l1 ++ l2) = dplus (lsum l1) (lsum l2).
Proof. unfold lsum; rewrite map_app, dsum_app; reflexivity. Qed.

Lemma lsum_split_key l a :
  lsum l = dplus (f a (weight l a)) (lsum (filter (fun x => negb (eqb (fst x) a)) l)).
Proof.
  induction l as [|x l IH]; simpl.
  - unfold lsum; simpl. rewrite weight_nil, f_zero, dplus_0_l; reflexivity.
  - rewrite weight_cons. unfold lsum in *; simpl. rewrite IH.
    destruct (eqb_spec (fst x) a) as [<-|Hne]; simpl.
    + rewrite f_plus, dplus_assoc; reflexivity.
    + rewrite dplus_left_comm; reflexivity.
Qed.

Lemma weight_filter_key l a b :
  weight (filter (fun x => negb (eqb (fst x) a)) l) b = if eqb a b then dzero else weight l b.
Proof.
  induction l as [|x l IH]; simpl.
  - rewrite weight_nil; destruct (eqb a b); reflexivity.
  - destruct (eqb_spec (fst x) a) as [E|E]; simpl; rewrite ?weight_cons, IH.
    + rewrite E. destruct (eqb_spec a b); reflexivity.
    + destruct (eqb_spec a b) as [->|]; destruct (eqb_spec (fst x) b); try congruence; reflexivity.
Qed.

Lemma lsum_zero_weights n : forall l, length l <= n -> (forall a, weight l a = dzero) -> lsum l = dzero.
Proof.
  induction n as [|n IH]; intros l Hn Hw.
  - destruct l; simpl in Hn; [reflexivity | lia].
  - destruct l as [|x l]; [reflexivity|].
    rewrite (lsum_split_key (x :: l) (fst x)), Hw, f_zero, dplus_0_l.
    apply IH.
    + simpl. rewrite eqb_refl; simpl. simpl in Hn.
      clear -Hn. assert (length (filter (fun y => negb (eqb (fst y) (fst x))) l) <= length l).
      { clear Hn. induction l as [|y l IHl]; simpl; [lia|]. destruct (negb _); simpl; lia. }
      lia.
    + intros a. rewrite weight_filter_key, Hw. destruct (eqb _ _); reflexivity.
Qed.

Lemma lsum_same_weights_aux n : forall l1 l2, length l1 <= n -> same_weights l1 l2 -> lsum l1 = lsum l2.
Proof.
  induction n as [|n IH]; intros l1 l2 Hn Hw.
  - destruct l1; simpl in Hn; [|lia]. symmetry. apply (lsum_zero_weights (length l2)); auto.
    intros a; rewrite <- Hw; reflexivity.
  - destruct l1 as [|x l1].
    + symmetry. apply (lsum_zero_weights (length l2)); auto. intros a; rewrite <- Hw; reflexivity.
    + rewrite (lsum_split_key (x :: l1) (fst x)), (lsum_split_key l2 (fst x)), Hw. f_equal.
      apply IH.
      * simpl. rewrite eqb_refl; simpl. simpl in Hn.
        assert (length (filter (fun y => negb (eqb (fst y) (fst x))) l1) <= length l1).
        { clear. induction l1 as [|y l IHl]; simpl; [lia|]. destruct (negb _); simpl; lia. }
        lia.
      * intros a. rewrite !weight_filter_key, Hw. reflexivity.
Qed.

Lemma lsum_same_weights l1 l2 : same_weights l1 l2 -> lsum l1 = lsum l2.
Proof. apply (lsum_same_weights_aux (length l1)); auto. Qed.
End Linear.
End WeightFacts.

Section WeightFacts2.
Context {A R : Type} {OA : Ord A} {DR : Diff R}.
Implicit Types l : list (A * R).

Lemma map_same_weights {B} {OB : Ord B} (g : A -> B) l1 l2 :
  same_weights l1 l2 ->
  same_weights (map (fun x => (g (fst x), snd x)) l1) (map (fun x => (g (fst x), snd x)) l2).
Proof.
  intros H b.
  assert (forall l, weight (map (fun x => (g (fst x), snd x)) l) b
                    = lsum (fun a r => if eqb (g a) b then r else dzero) l) as E.
  { intros l; induction l as [|x l IH]; simpl; auto.
    rewrite weight_cons', IH; unfold lsum; simpl. reflexivity. }
  rewrite !E. apply lsum_same_weights; auto.
  - intros a; destruct (eqb (g a) b); reflexivity.
  - intros a r1 r2; destruct (eqb (g a) b); auto. symmetry; apply dplus_0_l.
Qed.

Lemma filter_same_weights (p : A -> bool) l1 l2 :
  same_weights l1 l2 -> same_weights (filter (fun x => p (fst x)) l1) (filter (fun x => p (fst x)) l2).
Proof.
  assert (forall l b, weight (filter (fun x => p (fst x)) l) b = if p b then weight l b else dzero) as E.
  { intros l b; induction l as [|x l IH]; simpl.
    - rewrite weight_nil; destruct (p b); reflexivity.
    - destruct (p (fst x)) eqn:Ep; rewrite ?weight_cons, IH; destruct (eqb_spec (fst x) b) as [<-|]; rewrite ?Ep; auto.
  }
  intros H b; rewrite !E, H; reflexivity.
Qed.

Lemma weight_filter (p : A -> bool) l b :
  weight (filter (fun x => p (fst x)) l) b = if p b then weight l b else dzero.
Proof.
  induction l as [|x l IH]; simpl.
  - rewrite weight_nil; destruct (p b); reflexivity.
  - destruct (p (fst x)) eqn:Ep; rewrite ?weight_cons, IH; destruct (eqb_spec (fst x) b) as [<-|]; rewrite ?Ep; auto.
Qed.

(** ** Canonical form is unique *)
Lemma strictly_sorted_cons_inv (a : A) (l : list A) : strictly_sorted (a :: l) -> strictly_sorted l /\ Forall (lt a) l.
Proof.
  revert a; induction l as [|b l IH]; intros a H.
  - split; constructor.
  - inversion H; subst. split; auto. destruct (IH _ H4) as [_ HF].
    constructor; auto. eapply Forall_impl; [|exact HF]. intros c; apply lt_trans; auto.
Qed.

Lemma strictly_sorted_cons (a : A) (l : list A) : strictly_sorted l -> Forall (lt a) l -> strictly_sorted (a :: l).
Proof. intros H1 H2; destruct l; constructor; auto. inversion H2; auto. Qed.

Lemma strictly_sorted_app (l1 l2 : list A) :
  strictly_sorted (l1 ++ l2) <->
  strictly_sorted l1 /\ strictly_sorted l2 /\ (forall a b, In a l1 -> In b l2 -> lt a b).
Proof.
  induction l1 as [|a l1 IH]; simpl.
  - split; [intros H; repeat split; auto; [constructor | intros ? ? []] | intros [_ [H _]]; auto].
  - split.
    + intros H. apply strictly_sorted_cons_inv in H as [H HF]. apply IH in H as [H1 [H2 H3]].
      rewrite Forall_app in HF. destruct HF as [HF1 HF2]. rewrite Forall_forall in HF2.
      repeat split; auto. apply strictly_sorted_cons; auto.
      intros x y [<-|Hx] Hy; auto.
    + intros [H1 [H2 H3]]. apply strictly_sorted_cons_inv in H1 as [H1 HF]. apply strictly_sorted_cons.
      * apply IH; repeat split; auto.
      * apply Forall_app; split; auto. rewrite Forall_forall; intros; apply H3; auto.
Qed.

Lemma strictly_sorted_nodup (l : list A) : strictly_sorted l -> NoDup l.
Proof.
  induction l as [|a l IH]; intros H; constructor; apply strictly_sorted_cons_inv in H as [H HF]; auto.
  intros Hin. rewrite Forall_forall in HF. exact (lt_irrefl _ (HF _ Hin)).
Qed.

Lemma consolidated_nil : consolidated (A:=A) (R:=R) [].
Proof. split; constructor. Qed.

Lemma consolidated_cons_inv x l :
  consolidated (x :: l) -> consolidated l /\ is_zero (snd x) = false /\ Forall (fun y => lt (fst x) (fst y)) l.
Proof.
  intros [H1 H2]; simpl in H1. apply strictly_sorted_cons_inv in H1 as [H1 HF]. inversion H2; subst.
  repeat split; auto. rewrite Forall_map in HF; exact HF.
Qed.

Lemma consolidated_cons x l :
  consolidated l -> is_zero (snd x) = false -> Forall (fun y => lt (fst x) (fst y)) l -> consolidated (x :: l).
Proof.
  intros [H1 H2] H3 H4; split; simpl; [|constructor; auto].
  apply strictly_sorted_cons; auto. rewrite Forall_map; exact H4.
Qed.

Lemma consolidated_app l1 l2 :
  consolidated (l1 ++ l2) <->
  consolidated l1 /\ consolidated l2 /\ (forall x y, In x l1 -> In y l2 -> lt (fst x) (fst y)).
Proof.
  unfold consolidated. rewrite map_app, strictly_sorted_app, Forall_app.
  split.
  - intros [[H1 [H2 H3]] [H4 H5]]; repeat split; auto. intros; apply H3; apply in_map; auto.
  - intros [[H1 H2] [[H3 H4] H5]]; repeat split; auto.
    intros a b Ha Hb. apply in_map_iff in Ha as [x [<- Hx]]. apply in_map_iff in Hb as [y [<- Hy]]. auto.
Qed.

Lemma weight_lt_zero l a : Forall (fun y => lt a (fst y)) l -> weight l a = dzero.
Proof.
  intros H; apply weight_notin; intros Hin. apply in_map_iff in Hin as [y [<- Hy]].
  rewrite Forall_forall in H. exact (lt_irrefl _ (H _ Hy)).
Qed.

Lemma consolidated_weight l : consolidated l -> forall x, In x l -> weight l (fst x) = snd x.
Proof.
  induction l as [|y l IH]; simpl; intros H x Hx; [tauto|].
  apply consolidated_cons_inv in H as [H1 [H2 H3]]. rewrite weight_cons.
  destruct Hx as [->|Hx].
  - rewrite eqb_refl, (weight_lt_zero l); auto. apply dplus_0_r.
  - rewrite Forall_forall in H3. pose proof (lt_neq _ _ (H3 _ Hx)).
    destruct (eqb_spec (fst y) (fst x)); [contradiction|]. auto.
Qed.

Lemma consolidated_in_weight l a : consolidated l -> (In a (map fst l) <-> weight l a <> dzero).
Proof.
  intros H; split.
  - intros Hin. apply in_map_iff in Hin as [x [<- Hx]]. rewrite (consolidated_weight l H x Hx).
    destruct H as [_ H]. rewrite Forall_forall in H. apply is_zero_false; auto.
  - intros Hw. destruct (in_dec eq_dec a (map fst l)); auto. exfalso; apply Hw, weight_notin; auto.
Qed.

Theorem consolidated_unique l1 l2 : consolidated l1 -> consolidated l2 -> same_weights l1 l2 -> l1 = l2.
Proof.
  revert l2; induction l1 as [|x l1 IH]; intros l2 H1 H2 Hw.
  - destruct l2 as [|y l2]; auto. exfalso.
    pose proof (consolidated_weight _ H2 y (or_introl eq_refl)) as E. rewrite <- Hw, weight_nil in E.
    apply consolidated_cons_inv in H2 as [_ [H2 _]]. rewrite <- E, is_zero_dzero in H2; discriminate.
  - destruct l2 as [|y l2].
    + exfalso. pose proof (consolidated_weight _ H1 x (or_introl eq_refl)) as E. rewrite Hw, weight_nil in E.
      apply consolidated_cons_inv in H1 as [_ [H1 _]]. rewrite <- E, is_zero_dzero in H1; discriminate.
    + pose proof (consolidated_weight _ H1 x (or_introl eq_refl)) as Ex.
      pose proof (consolidated_weight _ H2 y (or_introl eq_refl)) as Ey.
      apply consolidated_cons_inv in H1 as [H1 [Hz1 HF1]]. apply consolidated_cons_inv in H2 as [H2 [Hz2 HF2]].
      assert (fst x = fst y) as Efst.
      { destruct (lt_total (fst x) (fst y)) as [Hl|[Hl|Hl]]; auto; exfalso.
        - pose proof Ex as Ex'. rewrite Hw, weight_cons in Ex'.
          destruct (eqb_spec (fst y) (fst x)) as [Hq|Hq]; [rewrite Hq in Hl; exact (lt_irrefl _ Hl)|].
          rewrite weight_lt_zero in Ex'.
          + rewrite <- Ex', is_zero_dzero in Hz1; discriminate.
          + eapply Forall_impl; [|exact HF2]. intros z; simpl; apply lt_trans; auto.
        - pose proof Ey as Ey'. rewrite <- Hw, weight_cons in Ey'.
          destruct (eqb_spec (fst x) (fst y)) as [Hq|Hq]; [rewrite Hq in Hl; exact (lt_irrefl _ Hl)|].
          rewrite weight_lt_zero in Ey'.
          + rewrite <- Ey', is_zero_dzero in Hz2; discriminate.
          + eapply Forall_impl; [|exact HF1]. intros z; simpl; apply lt_trans; auto. }
      assert (snd x = snd y) as Esnd.
      { rewrite <- Ex, <- Ey, Efst. apply Hw. }
      destruct x as [a r], y as [b s]; simpl in *; subst b s. f_equal.
      apply IH; auto. intros c. specialize (Hw c). rewrite !weight_cons in Hw; simpl in Hw.
      destruct (eqb_spec a c) as [E|]; auto. subst c.
      rewrite !weight_lt_zero; auto.
Qed.
End WeightFacts2.

(** ** Accumulations *)
Section AccFacts.
Context {D T R : Type} {OD : Ord D} {OT : Time T} {DR : Diff R}.
Implicit Types c : list (D * T * R).

Lemma acc_nil d t : acc (R:=R) [] d t = dzero (R:=R).
Proof. reflexivity. Qed.

Lemma acc_cons u c d t :
  acc (u :: c) d t = if eqb (fst (fst u)) d && tle (snd (fst u)) t then dplus (snd u) (acc c d t) else acc c d t.
Proof. unfold acc; simpl. destruct (_ && _); reflexivity. Qed.

Lemma acc_cons' u c d t :
  acc (u :: c) d t = dplus (if eqb (fst (fst u)) d && tle (snd (fst u)) t then snd u else dzero) (acc c d t).
Proof. rewrite acc_cons. destruct (_ && _); rewrite ?dplus_0_l; reflexivity. Qed.

Lemma acc_app c1 c2 d t : acc (c1 ++ c2) d t = dplus (acc c1 d t) (acc c2 d t).
Proof. unfold acc; rewrite filter_app, map_app, dsum_app; reflexivity. Qed.

Lemma acc_perm c1 c2 d t : Permutation c1 c2 -> acc c1 d t = acc c2 d t.
Proof. intros H; unfold acc; apply dsum_perm, Permutation_map, Permutation_filter, H. Qed.

Lemma acc_lsum c d t :
  acc c d t = lsum (fun (a : D * T) (r : R) => if eqb (fst a) d && tle (snd a) t then r else dzero) c.
Proof.
  induction c as [|u c IH]; auto. rewrite acc_cons', IH; unfold lsum; simpl; reflexivity.
Qed.

Lemma acc_same_weights c1 c2 d t : same_weights (A:=D*T) c1 c2 -> acc c1 d t = acc c2 d t.
Proof.
  intros H; rewrite !acc_lsum. apply lsum_same_weights; auto.
  - intros a; destruct (_ && _); reflexivity.
  - intros a r1 r2; destruct (_ && _); auto. symmetry; apply dplus_0_l.
Qed.

Lemma acc_concat (cs : list (list (D * T * R))) d t : acc (concat cs) d t = dsum (map (fun c => acc c d t) cs).
Proof. induction cs as [|c cs IH]; simpl; auto. rewrite acc_app, IH; reflexivity. Qed.

Lemma same_beyond_refl F c : same_beyond F c c.
Proof. intros d t _; reflexivity. Qed.
Lemma same_beyond_sym F c1 c2 : same_beyond F c1 c2 -> same_beyond F c2 c1.
Proof. intros H d t Ht; symmetry; apply H; auto. Qed.
Lemma same_beyond_trans F c1 c2 c3 : same_beyond F c1 c2 -> same_beyond F c2 c3 -> same_beyond F c1 c3.
Proof. intros H1 H2 d t Ht; rewrite H1, H2; auto. Qed.
Lemma same_beyond_app F c1 c1' c2 c2' :
  same_beyond F c1 c1' -> same_beyond F c2 c2' -> same_beyond F (c1 ++ c2) (c1' ++ c2').
Proof. intros H1 H2 d t Ht; rewrite !acc_app, H1, H2; auto. Qed.
Lemma same_weights_beyond F c1 c2 : same_weights (A:=D*T) c1 c2 -> same_beyond F c1 c2.
Proof. intros H d t _; apply acc_same_weights; auto. Qed.
Lemma same_beyond_mono (F G : list T) c1 c2 :
  (forall t, beyond G t -> beyond F t) -> same_beyond F c1 c2 -> same_beyond G c1 c2.
Proof. intros HG H d t Ht; apply H; auto. Qed.

Lemma alike_refl F c : alike F c c.
Proof. intros d p _; reflexivity. Qed.
Lemma alike_sym F c1 c2 : alike F c1 c2 -> alike F c2 c1.
Proof. intros H d p Hp; symmetry; apply H; auto. Qed.
Lemma alike_trans F c1 c2 c3 : alike F c1 c2 -> alike F c2 c3 -> alike F c1 c3.
Proof. intros H1 H2 d p Hp; rewrite H1, H2; auto. Qed.
Lemma total_at_app p c1 c2 (d : D) : total_at p (c1 ++ c2) d = dplus (total_at p c1 d) (total_at (R:=R) p c2 d).
Proof. unfold total_at; rewrite filter_app, map_app, dsum_app; reflexivity. Qed.
Lemma alike_app F c1 c1' c2 c2' : alike F c1 c1' -> alike F c2 c2' -> alike F (c1 ++ c2) (c1' ++ c2').
Proof. intros H1 H2 d p Hp; rewrite !total_at_app, H1, H2; auto. Qed.
Lemma total_at_same_weights p c1 c2 (d : D) : same_weights (A:=D*T) c1 c2 -> total_at p c1 d = total_at p c2 d.
Proof.
  assert (E : forall c : list (D * T * R), total_at p c d = lsum (fun (a : D * T) (r : R) => if eqb (fst a) d && p (snd a) then r else dzero) c).
  { unfold total_at, lsum. induction c as [|u c IH]; auto. cbn [filter map]. rewrite dsum_cons, <- IH.
    destruct (_ && _); [cbn [map]; rewrite dsum_cons; auto|rewrite dplus_0_l; auto]. }
  intros H; rewrite !E. apply lsum_same_weights; auto.
  - intros a; destruct (_ && _); reflexivity.
  - intros a r1 r2; destruct (_ && _); auto. symmetry; apply dplus_0_l.
Qed.
Lemma same_weights_alike F c1 c2 : same_weights (A:=D*T) c1 c2 -> alike F c1 c2.
Proof. intros H d p _; apply total_at_same_weights; auto. Qed.
Lemma alike_mono (F G : list T) c1 c2 : (forall t, beyond G t -> beyond F t) -> alike F c1 c2 -> alike G c1 c2.
Proof. intros HG H d p Hp; apply H. intros t t' Ht; apply Hp. intros u Hu; apply Ht; auto. Qed.
Lemma alike_beyond F c1 c2 : alike F c1 c2 -> same_beyond F c1 c2.
Proof. intros H d t Ht. apply (H d (fun t' => tle t' t)). intros t1 t2 H12; apply H12; auto. Qed.
End AccFacts.
