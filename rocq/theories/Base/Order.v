(** Total orders (Rust's [Ord]) as a class with laws, and their boolean tests. *)
From Coq Require Export List Arith ZArith Bool Lia Permutation.
Export ListNotations.
#[global] Arguments Nat.div : simpl never.
#[global] Arguments Nat.modulo : simpl never.

Class Ord (A : Type) := {
  cmp : A -> A -> comparison;
  cmp_eq : forall x y, cmp x y = Eq <-> x = y;
  cmp_antisym : forall x y, cmp y x = CompOpp (cmp x y);
  cmp_trans : forall x y z, cmp x y = Lt -> cmp y z = Lt -> cmp x z = Lt
}.

Section OrdFacts.
Context {A : Type} {OA : Ord A}.

Definition eqb (x y : A) : bool := match cmp x y with Eq => true | _ => false end.
Definition ltb (x y : A) : bool := match cmp x y with Lt => true | _ => false end.
Definition leb (x y : A) : bool := match cmp x y with Gt => false | _ => true end.

Definition lt (x y : A) : Prop := cmp x y = Lt.
Definition le (x y : A) : Prop := cmp x y <> Gt.

Lemma cmp_refl x : cmp x x = Eq.
Proof. apply cmp_eq; reflexivity. Qed.

Lemma eqb_eq x y : eqb x y = true <-> x = y.
Proof. unfold eqb; rewrite <- cmp_eq; destruct (cmp x y); split; congruence. Qed.

Lemma eqb_refl x : eqb x x = true.
Proof. apply eqb_eq; reflexivity. Qed.

Lemma eqb_neq x y : eqb x y = false <-> x <> y.
Proof. rewrite <- eqb_eq; destruct (eqb x y); split; congruence. Qed.

Lemma eqb_sym x y : eqb x y = eqb y x.
Proof. unfold eqb; rewrite (cmp_antisym x y); destruct (cmp x y); reflexivity. Qed.

Lemma eqb_spec x y : reflect (x = y) (eqb x y).
Proof. apply iff_reflect; symmetry; apply eqb_eq. Qed.

Lemma ltb_lt x y : ltb x y = true <-> lt x y.
Proof. unfold ltb, lt; destruct (cmp x y); split; congruence. Qed.

Lemma ltb_ge x y : ltb x y = false <-> le y x.
Proof. unfold ltb, le; rewrite (cmp_antisym x y); destruct (cmp x y); simpl; split; congruence. Qed.

Lemma leb_le x y : leb x y = true <-> le x y.
Proof. unfold leb, le; destruct (cmp x y); split; congruence. Qed.

Lemma leb_gt x y : leb x y = false <-> lt y x.
Proof. unfold leb, lt; rewrite (cmp_antisym x y); destruct (cmp x y); simpl; split; congruence. Qed.

Lemma cmp_Gt_lt x y : cmp x y = Gt <-> lt y x.
Proof. unfold lt; rewrite (cmp_antisym x y); destruct (cmp x y); simpl; split; congruence. Qed.

Lemma lt_irrefl x : ~ lt x x.
Proof. unfold lt; rewrite cmp_refl; congruence. Qed.

Lemma lt_trans x y z : lt x y -> lt y z -> lt x z.
Proof. apply cmp_trans. Qed.

Lemma lt_asym x y : lt x y -> ~ lt y x.
Proof. intros H1 H2; exact (lt_irrefl x (lt_trans _ _ _ H1 H2)). Qed.

Lemma lt_neq x y : lt x y -> x <> y.
Proof. intros H ->; exact (lt_irrefl _ H). Qed.

Lemma le_refl x : le x x.
Proof. unfold le; rewrite cmp_refl; congruence. Qed.

Lemma le_lteq x y : le x y <-> lt x y \/ x = y.
Proof. unfold le, lt; rewrite <- cmp_eq; destruct (cmp x y); intuition congruence. Qed.

Lemma lt_le x y : lt x y -> le x y.
Proof. rewrite le_lteq; auto. Qed.

Lemma lt_le_trans x y z : lt x y -> le y z -> lt x z.
Proof. rewrite le_lteq; intros H [H'|<-]; [eapply lt_trans; eauto | auto]. Qed.

Lemma le_lt_trans x y z : le x y -> lt y z -> lt x z.
Proof. rewrite le_lteq; intros [H| ->] H'; [eapply lt_trans; eauto | auto]. Qed.

Lemma le_trans x y z : le x y -> le y z -> le x z.
Proof. rewrite (le_lteq x y); intros [H| ->] H'; [apply lt_le; eapply lt_le_trans; eauto | auto]. Qed.

Lemma le_antisym x y : le x y -> le y x -> x = y.
Proof. rewrite !le_lteq; intros [H|H] [H'|H']; subst; auto. exfalso; eapply lt_asym; eauto. Qed.

Lemma not_lt_le x y : ~ lt x y <-> le y x.
Proof. rewrite <- ltb_ge, <- ltb_lt; destruct (ltb x y); split; congruence. Qed.

Lemma not_le_lt x y : ~ le x y <-> lt y x.
Proof. rewrite <- leb_gt, <- leb_le; destruct (leb x y); split; congruence. Qed.

Lemma lt_total x y : lt x y \/ x = y \/ lt y x.
Proof. destruct (cmp x y) eqn:E; [apply cmp_eq in E | | apply cmp_Gt_lt in E]; auto. Qed.

Lemma le_total x y : le x y \/ le y x.
Proof. destruct (lt_total x y) as [H|[->|H]]; [left; apply lt_le | left; apply le_refl | right; apply lt_le]; auto. Qed.

Definition eq_dec (x y : A) : {x = y} + {x <> y}.
Proof. destruct (eqb x y) eqn:E; [left; apply eqb_eq | right; apply eqb_neq]; exact E. Defined.

End OrdFacts.

Arguments eqb : simpl never.
Arguments ltb : simpl never.
Arguments leb : simpl never.
Arguments lt : simpl never.
Arguments le : simpl never.

Lemma cmp_spec {A} {OA : Ord A} (x y : A) : CompareSpec (x = y) (lt x y) (lt y x) (cmp x y).
Proof.
  destruct (cmp x y) eqn:E; constructor.
  - apply cmp_eq; exact E.
  - exact E.
  - apply cmp_Gt_lt; exact E.
Qed.

(** ** Instances *)

#[global] Program Instance Ord_nat : Ord nat := {| cmp := Nat.compare |}.
Next Obligation. apply Nat.compare_eq_iff. Qed.
Next Obligation. apply Nat.compare_antisym. Qed.
Next Obligation. rewrite Nat.compare_lt_iff in *; lia. Qed.

#[global] Program Instance Ord_Z : Ord Z := {| cmp := Z.compare |}.
Next Obligation. apply Z.compare_eq_iff. Qed.
Next Obligation. apply Z.compare_antisym. Qed.
Next Obligation. rewrite Z.compare_lt_iff in *; lia. Qed.

#[global] Program Instance Ord_unit : Ord unit := {| cmp := fun _ _ => Eq |}.
Next Obligation. destruct x, y; split; auto. Qed.

Definition bool_cmp (a b : bool) : comparison :=
  match a, b with false, true => Lt | true, false => Gt | _, _ => Eq end.
#[global] Program Instance Ord_bool : Ord bool := {| cmp := bool_cmp |}.
Next Obligation. destruct x, y; simpl; split; congruence. Qed.
Next Obligation. destruct x, y; reflexivity. Qed.
Next Obligation. destruct x, y, z; simpl in *; congruence. Qed.

Definition pair_cmp {A B} {OA : Ord A} {OB : Ord B} (x y : A * B) : comparison :=
  match cmp (fst x) (fst y) with Eq => cmp (snd x) (snd y) | c => c end.

#[global] Program Instance Ord_prod {A B} {OA : Ord A} {OB : Ord B} : Ord (A * B) := {| cmp := pair_cmp |}.
Next Obligation.
  unfold pair_cmp; simpl. split.
  - destruct (cmp a0 a) eqn:E; try discriminate. intros H; apply cmp_eq in E, H; subst; reflexivity.
  - intros H; inversion H; subst; rewrite !cmp_refl; reflexivity.
Qed.
Next Obligation.
  unfold pair_cmp; simpl. rewrite (cmp_antisym a0 a). destruct (cmp a0 a); simpl; auto. apply cmp_antisym.
Qed.
Next Obligation.
  unfold pair_cmp in *; simpl in *.
  destruct (cmp a1 a0) eqn:E1; try discriminate.
  - apply cmp_eq in E1; subst. destruct (cmp a0 a) eqn:E2; try discriminate; auto. eapply cmp_trans; eauto.
  - destruct (cmp a0 a) eqn:E2; try discriminate.
    + apply cmp_eq in E2; subst. rewrite E1; auto.
    + rewrite (cmp_trans _ _ _ E1 E2); auto.
Qed.

Fixpoint list_cmp {A} {OA : Ord A} (x y : list A) : comparison :=
  match x, y with
  | [], [] => Eq
  | [], _ => Lt
  | _, [] => Gt
  | a :: x', b :: y' => match cmp a b with Eq => list_cmp x' y' | c => c end
  end.

#[global] Program Instance Ord_list {A} {OA : Ord A} : Ord (list A) := {| cmp := list_cmp |}.
Next Obligation.
  revert y; induction x as [|a x IH]; intros [|b y]; simpl; try (split; congruence).
  destruct (cmp a b) eqn:E.
  - apply cmp_eq in E; subst. rewrite IH. split; congruence.
  - split; try congruence. intros H; inversion H; subst. rewrite cmp_refl in E; congruence.
  - split; try congruence. intros H; inversion H; subst. rewrite cmp_refl in E; congruence.
Qed.
Next Obligation.
  revert y; induction x as [|a x IH]; intros [|b y]; simpl; auto.
  rewrite (cmp_antisym a b). destruct (cmp a b); simpl; auto.
Qed.
Next Obligation.
  revert y z H H0; induction x as [|a x IH]; intros [|b y] [|c z]; simpl; try congruence.
  destruct (cmp a b) eqn:E1; try discriminate.
  - apply cmp_eq in E1; subst. destruct (cmp b c) eqn:E2; try discriminate; auto. apply IH.
  - destruct (cmp b c) eqn:E2; try discriminate.
    + apply cmp_eq in E2; subst. rewrite E1; auto.
    + rewrite (cmp_trans _ _ _ E1 E2); auto.
Qed.

Definition option_cmp {A} {OA : Ord A} (x y : option A) : comparison :=
  match x, y with
  | None, None => Eq | None, Some _ => Lt | Some _, None => Gt
  | Some a, Some b => cmp a b
  end.
#[global] Program Instance Ord_option {A} {OA : Ord A} : Ord (option A) := {| cmp := option_cmp |}.
Next Obligation.
  destruct x, y; simpl; try (split; congruence). rewrite cmp_eq. split; congruence.
Qed.
Next Obligation. destruct x, y; simpl; auto. apply cmp_antisym. Qed.
Next Obligation. destruct x, y, z; simpl in *; try congruence. eapply cmp_trans; eauto. Qed.

Lemma lt_pair {A B} {OA : Ord A} {OB : Ord B} (a1 a2 : A) (b1 b2 : B) :
  lt (a1, b1) (a2, b2) <-> lt a1 a2 \/ (a1 = a2 /\ lt b1 b2).
Proof.
  unfold lt at 1; simpl; unfold pair_cmp; simpl.
  destruct (cmp_spec a1 a2) as [->|H|H].
  - split; [intros H; right; split; [reflexivity|exact H]|].
    intros [H|[_ H]]; [exfalso; exact (lt_irrefl _ H) | exact H].
  - split; [intros _; left; exact H | intros _; reflexivity].
  - split; [congruence|]. intros [H'|[-> _]]; exfalso; [exact (lt_asym _ _ H H') | exact (lt_irrefl _ H)].
Qed.
