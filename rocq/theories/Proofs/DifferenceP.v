(** Proofs about the models of difference.rs. *)
From Verif Require Export Spec.DifferenceLaws Model.DifferenceM Base.Difference.

Lemma int_abelian : abelian_laws eq int_plus int_is_zero int_zero int_neg.
Proof.
  unfold int_plus, int_is_zero, int_zero, int_neg.
  repeat constructor; intros; rewrite ?Z.eqb_eq in *; try lia.
Qed.
Lemma int_multiply : multiply_laws eq int_plus int_plus int_plus int_mul.
Proof. unfold int_plus, int_mul; constructor; intros; lia. Qed.

Section Wrap.
Variable n : Z.
Hypothesis Hn : (1 <= n)%Z.
Let M := (2 ^ n)%Z.
Let H := (2 ^ (n - 1))%Z.
Lemma wrap_facts : (M = 2 * H /\ 0 < H)%Z.
Proof.
  unfold M, H. split.
  - rewrite <- Z.pow_succ_r by lia. f_equal; lia.
  - apply Z.pow_pos_nonneg; lia.
Qed.
Lemma wrap_range z : in_range n (wrap n z).
Proof.
  destruct wrap_facts. unfold in_range, wrap; fold M H.
  pose proof (Z.mod_pos_bound (z + H) M). lia.
Qed.
Lemma wrap_id z : in_range n z -> wrap n z = z.
Proof.
  destruct wrap_facts. unfold in_range, wrap; fold M H. intros Hz.
  rewrite Z.mod_small; lia.
Qed.
Lemma wrap_cong z : exists k, (wrap n z = z + k * M)%Z.
Proof.
  destruct wrap_facts as [HM HH]. unfold wrap; fold M H. exists (- ((z + H) / M))%Z.
  pose proof (Z.div_mod (z + H) M). lia.
Qed.
Lemma wrap_eq a b k : (a = b + k * M)%Z -> wrap n a = wrap n b.
Proof.
  intros ->. unfold wrap; fold M H. f_equal. destruct wrap_facts.
  replace (b + k * M + H)%Z with (b + H + k * M)%Z by lia. apply Z_mod_plus_full.
Qed.

Definition ranged := { z : Z | in_range n z }.

Lemma wrapping_closed a b : in_range n (wrapping_plus n a b) /\ in_range n (wrapping_neg n a) /\ in_range n (wrapping_mul n a b).
Proof. repeat split; apply wrap_range. Qed.

Lemma wrapping_assoc a b c : wrapping_plus n (wrapping_plus n a b) c = wrapping_plus n a (wrapping_plus n b c).
Proof.
  unfold wrapping_plus. destruct (wrap_cong (a + b)) as [k Hk], (wrap_cong (b + c)) as [j Hj].
  apply (wrap_eq _ _ (k - j)). lia.
Qed.
Lemma wrapping_comm a b : wrapping_plus n a b = wrapping_plus n b a.
Proof. unfold wrapping_plus; f_equal; lia. Qed.
Lemma wrapping_zero a : in_range n a -> wrapping_plus n 0 a = a.
Proof. intros; unfold wrapping_plus; rewrite Z.add_0_l; apply wrap_id; auto. Qed.
Lemma wrapping_neg_inv a : wrapping_plus n a (wrapping_neg n a) = 0%Z.
Proof.
  unfold wrapping_plus, wrapping_neg. destruct (wrap_cong (- a)) as [k Hk].
  rewrite (wrap_eq _ 0 k) by lia. apply wrap_id. destruct wrap_facts. unfold in_range; fold H. lia.
Qed.
Lemma wrapping_mul_distr_l a b c :
  wrapping_mul n (wrapping_plus n a b) c = wrapping_plus n (wrapping_mul n a c) (wrapping_mul n b c).
Proof.
  unfold wrapping_plus, wrapping_mul.
  destruct (wrap_cong (a + b)) as [k Hk], (wrap_cong (a * c)) as [j Hj], (wrap_cong (b * c)) as [i Hi].
  apply (wrap_eq _ _ (k * c - j - i)). rewrite Hk, Hj, Hi. lia.
Qed.
Lemma wrapping_mul_comm a b : wrapping_mul n a b = wrapping_mul n b a.
Proof. unfold wrapping_mul; f_equal; lia. Qed.
End Wrap.

Lemma present_semigroup : semigroup_laws eq present_plus present_is_zero.
Proof. constructor; intros; repeat match goal with x : present |- _ => destruct x end; auto; discriminate. Qed.

Lemma present_multiply {T} (plus : T -> T -> T) :
  (forall a b c, present_mul a (plus b c) = plus (present_mul a b) (present_mul a c)).
Proof. reflexivity. Qed.

Lemma unit_abelian : abelian_laws eq unit_plus unit_is_zero tt unit_neg.
Proof.
  repeat constructor; intros; repeat match goal with x : unit |- _ => destruct x end; auto.
Qed.

Section Tuple.
Context {A B : Type}.
Variables (ea : A -> A -> Prop) (eb : B -> B -> Prop).
Variables (pa : A -> A -> A) (pb : B -> B -> B) (za : A -> bool) (zb : B -> bool) (na : A -> A) (nb : B -> B).
Definition pair_eqv (x y : A * B) : Prop := ea (fst x) (fst y) /\ eb (snd x) (snd y).

Lemma pair_semigroup : semigroup_laws ea pa za -> semigroup_laws eb pb zb ->
  semigroup_laws pair_eqv (pair_plus pa pb) (pair_is_zero za zb).
Proof.
  intros [a1 c1 z1] [a2 c2 z2]. unfold pair_eqv, pair_plus, pair_is_zero.
  constructor; intros; simpl; auto.
  apply andb_true_iff in H as [H1 H2]. destruct (z1 (fst z) (fst a) H1), (z2 (snd z) (snd a) H2); auto.
Qed.
Lemma pair_monoid ze1 ze2 : monoid_laws ea pa za ze1 -> monoid_laws eb pb zb ze2 ->
  monoid_laws pair_eqv (pair_plus pa pb) (pair_is_zero za zb) (ze1, ze2).
Proof.
  intros [s1 m1 o1] [s2 m2 o2]. constructor.
  - apply pair_semigroup; auto.
  - unfold pair_is_zero; simpl; rewrite m1, m2; auto.
  - intros [a b]. unfold pair_is_zero, pair_eqv; simpl. rewrite andb_true_iff, o1, o2; tauto.
Qed.
Lemma pair_abelian ze1 ze2 : abelian_laws ea pa za ze1 na -> abelian_laws eb pb zb ze2 nb ->
  abelian_laws pair_eqv (pair_plus pa pb) (pair_is_zero za zb) (ze1, ze2) (pair_neg na nb).
Proof.
  intros [m1 n1] [m2 n2]. constructor.
  - apply pair_monoid; auto.
  - intros a. unfold pair_is_zero, pair_plus, pair_neg; simpl. rewrite n1, n2; auto.
Qed.
Lemma pair_multiply {T C E} (ec : C -> C -> Prop) (ee : E -> E -> Prop) pt pc pe (ma : A -> T -> C) (mb : B -> T -> E) :
  multiply_laws ec pa pt pc ma -> multiply_laws ee pb pt pe mb ->
  multiply_laws (fun x y => ec (fst x) (fst y) /\ ee (snd x) (snd y)) (pair_plus pa pb) pt (pair_plus pc pe) (pair_mul ma mb).
Proof.
  intros [l1 r1] [l2 r2]. unfold pair_plus, pair_mul; constructor; intros; simpl; auto.
Qed.
End Tuple.

(** Vectors are read coordinate by coordinate, missing coordinates being zero. *)
Section Vector.
Context {R : Type} {DR : Diff R} {AR : Abelian R}.
Definition coord (v : list R) (i : nat) : R := nth i v dzero.
Definition vec_eqv (a b : list R) : Prop := forall i, coord a i = coord b i.

Lemma coord_plus a b i : coord (vec_plus dplus a b) i = dplus (coord a i) (coord b i).
Proof.
  unfold coord. revert b i; induction a as [|x a IH]; intros b i; simpl.
  - destruct i; rewrite dplus_0_l; reflexivity.
  - destruct b as [|y b]; [destruct i; simpl; rewrite dplus_0_r; reflexivity|].
    destruct i; simpl; auto.
Qed.
Lemma coord_zero a : vec_is_zero is_zero a = true <-> (forall i, coord a i = dzero).
Proof.
  unfold vec_is_zero, coord. rewrite forallb_forall. split.
  - intros H i. destruct (nth_in_or_default i a dzero) as [Hi|Hi]; auto. apply is_zero_spec, H, Hi.
  - intros H x Hx. apply is_zero_spec. apply (In_nth _ _ dzero) in Hx as [i [_ <-]]. apply H.
Qed.
Lemma coord_neg a i : coord (vec_neg dneg a) i = dneg (coord a i).
Proof. unfold coord, vec_neg. rewrite <- dneg_zero at 1. apply map_nth. Qed.

Lemma vec_abelian : abelian_laws vec_eqv (vec_plus dplus) (vec_is_zero is_zero) vec_zero (vec_neg dneg).
Proof.
  constructor; [constructor; [constructor|..]|].
  - intros a b c i. rewrite !coord_plus, dplus_assoc; reflexivity.
  - intros a b i. rewrite !coord_plus, dplus_comm; reflexivity.
  - intros z a Hz. pose proof (proj1 (coord_zero z) Hz) as Hz'. split; intros i; rewrite coord_plus, Hz'; [apply dplus_0_l | apply dplus_0_r].
  - reflexivity.
  - intros a. rewrite coord_zero. unfold vec_eqv, vec_zero.
    split; intros H i; rewrite H; unfold coord; destruct i; reflexivity.
  - intros a. apply coord_zero; intros i. rewrite coord_plus, coord_neg. apply dneg_r.
Qed.
End Vector.

Lemma vec_multiply {R T S} {DR : Diff R} {DT : Diff T} {DS : Diff S} {M : Multiply R T S} :
  multiply_laws (R3:=list S) vec_eqv (vec_plus dplus) dplus (vec_plus dplus) (vec_mul dmul).
Proof.
  assert (forall (v : list R) (t : T) i, coord (vec_mul dmul v t) i = dmul (coord v i) t) as E.
  { intros v t i. unfold coord, vec_mul. rewrite <- (dmul_0_l (R3:=S) t) at 1. apply (map_nth (fun x => dmul x t)). }
  constructor; intros a b c i; rewrite coord_plus, !E.
  - rewrite coord_plus, dmul_plus_l; reflexivity.
  - rewrite dmul_plus_r; reflexivity.
Qed.
