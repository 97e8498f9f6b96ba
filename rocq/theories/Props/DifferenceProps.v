(** C05: the algebra of differences. *)
From Verif Require Import Proofs.DifferenceP.

Theorem c05_integers : abelian_laws eq int_plus int_is_zero int_zero int_neg /\
                       multiply_laws eq int_plus int_plus int_plus int_mul.
Proof. exact (conj int_abelian int_multiply). Qed.
Print Assumptions c05_integers.

(** [Wrapping<iN>] for every bit width: sums stay in range and obey the group and distributive laws. *)
Theorem c05_wrapping : forall n : Z, (1 <= n)%Z ->
  (forall a b, in_range n (wrapping_plus n a b) /\ in_range n (wrapping_neg n a) /\ in_range n (wrapping_mul n a b)) /\
  (forall a b c, wrapping_plus n (wrapping_plus n a b) c = wrapping_plus n a (wrapping_plus n b c)) /\
  (forall a b, wrapping_plus n a b = wrapping_plus n b a) /\
  (forall a, in_range n a -> wrapping_plus n 0 a = a) /\
  (forall a, wrapping_plus n a (wrapping_neg n a) = 0%Z) /\
  (forall a b c, wrapping_mul n (wrapping_plus n a b) c = wrapping_plus n (wrapping_mul n a c) (wrapping_mul n b c)) /\
  (forall a b, wrapping_mul n a b = wrapping_mul n b a).
Proof.
  intros n Hn.
  exact (conj (wrapping_closed n Hn) (conj (wrapping_assoc n Hn) (conj (wrapping_comm n) (conj (wrapping_zero n Hn)
        (conj (wrapping_neg_inv n Hn) (conj (wrapping_mul_distr_l n Hn) (wrapping_mul_comm n))))))).
Qed.
Print Assumptions c05_wrapping.
Example c05_wrapping_ex : wrapping_plus 8 127 1 = (-128)%Z /\ wrapping_neg 8 (-128) = (-128)%Z /\
  wrapping_mul 8 100 3 = 44%Z /\ in_range 8 (-128).
Proof. vm_compute; repeat split; congruence. Qed.

Theorem c05_present : semigroup_laws eq present_plus present_is_zero /\ (forall a, present_is_zero a = false) /\
  (forall T (plus : T -> T -> T) a b c, present_mul a (plus b c) = plus (present_mul a b) (present_mul a c)).
Proof. exact (conj present_semigroup (conj (fun _ => eq_refl) (fun T plus => present_multiply plus))). Qed.
Print Assumptions c05_present.

Theorem c05_unit : abelian_laws eq unit_plus unit_is_zero tt unit_neg.
Proof. exact unit_abelian. Qed.
Print Assumptions c05_unit.

Theorem c05_tuples : forall (A B : Type) ea eb pa pb za zb na nb (ze1 : A) (ze2 : B),
  abelian_laws ea pa za ze1 na -> abelian_laws eb pb zb ze2 nb ->
  abelian_laws (fun x y => ea (fst x) (fst y) /\ eb (snd x) (snd y))
    (pair_plus pa pb) (pair_is_zero za zb) (ze1, ze2) (pair_neg na nb).
Proof. intros A B ea eb pa pb za zb na nb z1 z2. exact (pair_abelian ea eb pa pb za zb na nb z1 z2). Qed.
Print Assumptions c05_tuples.

Theorem c05_tuples_semigroup : forall (A B : Type) ea eb pa pb za zb,
  semigroup_laws (R:=A) ea pa za -> semigroup_laws (R:=B) eb pb zb ->
  semigroup_laws (fun x y => ea (fst x) (fst y) /\ eb (snd x) (snd y)) (pair_plus pa pb) (pair_is_zero za zb).
Proof. intros A B ea eb pa pb za zb. exact (pair_semigroup ea eb pa pb za zb). Qed.
Print Assumptions c05_tuples_semigroup.

Theorem c05_tuples_multiply : forall (A B T C E : Type) ec ee pa pb pt pc pe (ma : A -> T -> C) (mb : B -> T -> E),
  multiply_laws ec pa pt pc ma -> multiply_laws ee pb pt pe mb ->
  multiply_laws (fun x y => ec (fst x) (fst y) /\ ee (snd x) (snd y)) (pair_plus pa pb) pt (pair_plus pc pe) (pair_mul ma mb).
Proof. intros A B T C E ec ee pa pb pt pc pe ma mb. exact (pair_multiply pa pb ec ee pt pc pe ma mb). Qed.
Print Assumptions c05_tuples_multiply.

Example c05_tuples_ex : abelian_laws (fun x y : Z * (Z * Z) => fst x = fst y /\ (fst (snd x) = fst (snd y) /\ snd (snd x) = snd (snd y)))
  (pair_plus int_plus (pair_plus int_plus int_plus)) (pair_is_zero int_is_zero (pair_is_zero int_is_zero int_is_zero))
  (int_zero, (int_zero, int_zero)) (pair_neg int_neg (pair_neg int_neg int_neg)).
Proof.
  apply (c05_tuples _ _ eq (fun x y => fst x = fst y /\ snd x = snd y)); [apply c05_integers|].
  apply (c05_tuples _ _ eq eq); apply c05_integers.
Qed.

(** Vectors: the laws hold up to trailing zeros (coordinates beyond the end are zero). *)
Theorem c05_vectors : forall (R : Type) (DR : Diff R) (AR : Abelian R),
  abelian_laws (fun a b => forall i, nth i a dzero = nth i b dzero)
    (vec_plus dplus) (vec_is_zero is_zero) vec_zero (vec_neg dneg).
Proof. intros R DR AR. exact vec_abelian. Qed.
Print Assumptions c05_vectors.

Theorem c05_vectors_multiply : forall (R T S : Type) (DR : Diff R) (DT : Diff T) (DS : Diff S) (M : Multiply R T S),
  multiply_laws (R3:=list S) (fun a b => forall i, nth i a dzero = nth i b dzero)
    (vec_plus dplus) dplus (vec_plus dplus) (vec_mul dmul).
Proof. intros R T S DR DT DS M. exact vec_multiply. Qed.
Print Assumptions c05_vectors_multiply.

(** Finding: for vectors a value reporting zero is not a structural identity of addition. *)
Theorem c05_vector_zero_identity_refuted :
  ~ (forall z a : list Z, vec_is_zero int_is_zero z = true -> vec_plus int_plus z a = a).
Proof. intros H. specialize (H [0%Z] [] eq_refl). discriminate H. Qed.
Print Assumptions c05_vector_zero_identity_refuted.
Example c05_vectors_ex : vec_plus int_plus [1%Z; 2%Z] [3%Z; 4%Z; 5%Z] = [4%Z; 6%Z; 5%Z].
Proof. reflexivity. Qed.
