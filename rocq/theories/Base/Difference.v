(** Differences: commutative monoids with a decidable zero, groups, and bilinear products.
    These are the laws that differential-dataflow/src/difference.rs:15-70 documents for
    [Semigroup]/[Monoid]/[Abelian]/[Multiply].  A Rust [Semigroup] without a zero is covered by
    adjoining one. *)
From Verif Require Export Base.Order.

Class Diff (R : Type) := {
  dzero : R;
  dplus : R -> R -> R;
  is_zero : R -> bool;
  dplus_comm : forall a b, dplus a b = dplus b a;
  dplus_assoc : forall a b c, dplus (dplus a b) c = dplus a (dplus b c);
  dplus_0_l : forall a, dplus dzero a = a;
  is_zero_spec : forall a, is_zero a = true <-> a = dzero
}.

Class Abelian (R : Type) {DR : Diff R} := {
  dneg : R -> R;
  dneg_l : forall a, dplus (dneg a) a = dzero
}.

Class Multiply (R1 R2 R3 : Type) {D1 : Diff R1} {D2 : Diff R2} {D3 : Diff R3} := {
  dmul : R1 -> R2 -> R3;
  dmul_plus_l : forall a b c, dmul (dplus a b) c = dplus (dmul a c) (dmul b c);
  dmul_plus_r : forall a b c, dmul a (dplus b c) = dplus (dmul a b) (dmul a c);
  dmul_0_l : forall c, dmul dzero c = dzero;
  dmul_0_r : forall a, dmul a dzero = dzero
}.

Section DiffFacts.
Context {R : Type} {DR : Diff R}.
Implicit Types a b c d : R.

Lemma dplus_0_r a : dplus a dzero = a.
Proof. rewrite dplus_comm; apply dplus_0_l. Qed.

Lemma is_zero_dzero : is_zero dzero = true.
Proof. apply is_zero_spec; reflexivity. Qed.

Lemma is_zero_false a : is_zero a = false <-> a <> dzero.
Proof. rewrite <- is_zero_spec; destruct (is_zero a); split; congruence. Qed.

Lemma dplus_swap4 a b c d : dplus (dplus a b) (dplus c d) = dplus (dplus a c) (dplus b d).
Proof.
  rewrite !dplus_assoc; f_equal. rewrite <- !dplus_assoc; f_equal. apply dplus_comm.
Qed.

Lemma dplus_left_comm a b c : dplus a (dplus b c) = dplus b (dplus a c).
Proof. rewrite <- !dplus_assoc; f_equal; apply dplus_comm. Qed.

Definition dsum (l : list R) : R := fold_right dplus dzero l.

Lemma dsum_nil : dsum [] = dzero.
Proof. reflexivity. Qed.

Lemma dsum_cons a l : dsum (a :: l) = dplus a (dsum l).
Proof. reflexivity. Qed.

Lemma dsum_app l1 l2 : dsum (l1 ++ l2) = dplus (dsum l1) (dsum l2).
Proof.
  induction l1 as [|a l1 IH]; simpl.
  - rewrite dplus_0_l; reflexivity.
  - rewrite IH, dplus_assoc; reflexivity.
Qed.

Lemma dsum_perm l1 l2 : Permutation l1 l2 -> dsum l1 = dsum l2.
Proof.
  induction 1; simpl; auto; try congruence. apply dplus_left_comm.
Qed.

Lemma dsum_map_plus {A} (f g : A -> R) l :
  dsum (map (fun x => dplus (f x) (g x)) l) = dplus (dsum (map f l)) (dsum (map g l)).
Proof.
  induction l as [|x l IH]; simpl.
  - rewrite dplus_0_l; reflexivity.
  - rewrite IH. apply dplus_swap4.
Qed.

Lemma dsum_map_zero {A} (f : A -> R) l : (forall x, In x l -> f x = dzero) -> dsum (map f l) = dzero.
Proof.
  induction l as [|x l IH]; simpl; intros H; auto.
  rewrite H, IH; auto. apply dplus_0_l.
Qed.

Lemma dsum_map_ext {A} (f g : A -> R) l : (forall x, In x l -> f x = g x) -> dsum (map f l) = dsum (map g l).
Proof. intros H; f_equal; apply map_ext_in; exact H. Qed.

End DiffFacts.

Section AbelianFacts.
Context {R : Type} {DR : Diff R} {AR : Abelian R}.
Implicit Types a b c : R.

Lemma dneg_r a : dplus a (dneg a) = dzero.
Proof. rewrite dplus_comm; apply dneg_l. Qed.

Lemma dplus_cancel_l a b c : dplus a b = dplus a c -> b = c.
Proof.
  intros H. rewrite <- (dplus_0_l b), <- (dplus_0_l c), <- (dneg_l a), !dplus_assoc, H. reflexivity.
Qed.

Lemma dplus_cancel_r a b c : dplus b a = dplus c a -> b = c.
Proof. rewrite !(dplus_comm _ a); apply dplus_cancel_l. Qed.

Lemma dneg_unique a b : dplus a b = dzero -> b = dneg a.
Proof. intros H. apply (dplus_cancel_l a). rewrite H, dneg_r; reflexivity. Qed.

Lemma dneg_involutive a : dneg (dneg a) = a.
Proof. symmetry; apply dneg_unique; apply dneg_l. Qed.

Lemma dneg_zero : dneg dzero = dzero.
Proof. symmetry; apply dneg_unique; apply dplus_0_l. Qed.

Lemma dneg_plus a b : dneg (dplus a b) = dplus (dneg a) (dneg b).
Proof.
  symmetry; apply dneg_unique. rewrite dplus_swap4, !dneg_r; apply dplus_0_l.
Qed.

Lemma dplus_eq_neg a b : dplus a (dneg b) = dzero <-> a = b.
Proof.
  split.
  - intros H. apply (dplus_cancel_r (dneg b)). rewrite H, dneg_r; reflexivity.
  - intros ->; apply dneg_r.
Qed.

Lemma dsum_map_neg {A} (f : A -> R) l : dsum (map (fun x => dneg (f x)) l) = dneg (dsum (map f l)).
Proof.
  induction l as [|x l IH]; simpl.
  - symmetry; apply dneg_zero.
  - rewrite IH, dneg_plus; reflexivity.
Qed.
End AbelianFacts.

Section MultiplyFacts.
Context {R1 R2 R3 : Type} {D1 : Diff R1} {D2 : Diff R2} {D3 : Diff R3} {M : Multiply R1 R2 R3}.

Lemma dmul_dsum_l {A} (f : A -> R1) l (c : R2) : dmul (dsum (map f l)) c = dsum (map (fun x => dmul (f x) c) l).
Proof.
  induction l as [|x l IH]; simpl.
  - apply dmul_0_l.
  - rewrite dmul_plus_l, IH; reflexivity.
Qed.

Lemma dmul_dsum_r {A} (f : A -> R2) l (c : R1) : dmul c (dsum (map f l)) = dsum (map (fun x => dmul c (f x)) l).
Proof.
  induction l as [|x l IH]; simpl.
  - apply dmul_0_r.
  - rewrite dmul_plus_r, IH; reflexivity.
Qed.
End MultiplyFacts.

(** ** The integers *)
#[global] Program Instance Diff_Z : Diff Z := {| dzero := 0%Z; dplus := Z.add; is_zero := Z.eqb 0 |}.
Next Obligation. apply Z.add_comm. Qed.
Next Obligation. symmetry; apply Z.add_assoc. Qed.
Next Obligation. destruct a; split; congruence. Qed.

#[global] Program Instance Abelian_Z : Abelian Z := {| dneg := Z.opp |}.
Next Obligation. apply Z.add_opp_diag_l. Qed.

#[global] Program Instance Multiply_Z : Multiply Z Z Z := {| dmul := Z.mul |}.
Next Obligation. apply Z.mul_add_distr_r. Qed.
Next Obligation. apply Z.mul_add_distr_l. Qed.
Next Obligation. apply Z.mul_0_r. Qed.
