(** Equality of antichains. *)
From Verif Require Import Base.Arrays Base.Collections Model.LatticeM Model.DescriptionM Proofs.LatticeP.

Section DescriptionP.
Context {T : Type} {TT : Time T}.

Lemma forallb_combine_eq (F G : list T) : length F = length G -> forallb (fun x => eqb (fst x) (snd x)) (combine F G) = true -> F = G.
Proof.
  revert G; induction F as [|f F IH]; intros [|g G] HL H; simpl in *; try lia; auto.
  apply andb_true_iff in H as [H1 H2]. simpl in H1. destruct (eqb_spec f g) as [->|]; [|discriminate]. f_equal; auto.
Qed.

Lemma ac_eqb_perm (F G : list T) : antichain F -> antichain G -> ac_eqb F G = true -> Permutation F G.
Proof.
  intros HF HG H. unfold ac_eqb in H. apply andb_true_iff in H as [HL H]. apply Nat.eqb_eq in HL. apply orb_true_iff in H as [H|H].
  - rewrite (forallb_combine_eq F G HL H). reflexivity.
  - apply NoDup_Permutation_bis; [apply antichain_nodup; auto|lia|].
    intros x Hx. rewrite forallb_forall in H. specialize (H x Hx). apply existsb_exists in H as (y & Hy & E). destruct (eqb_spec x y) as [->|]; [auto|discriminate].
Qed.

Lemma ac_eqb_refl (F : list T) : ac_eqb F F = true.
Proof.
  unfold ac_eqb. rewrite Nat.eqb_refl. simpl. apply orb_true_iff. right. apply forallb_forall. intros x Hx. apply existsb_exists.
  exists x. split; auto. apply eqb_refl.
Qed.

Lemma perm_ac_eqb (F G : list T) : Permutation F G -> ac_eqb F G = true.
Proof.
  intros H. unfold ac_eqb. rewrite (Permutation_length H), Nat.eqb_refl. simpl. apply orb_true_iff. right.
  apply forallb_forall. intros x Hx. apply existsb_exists. exists x. split; [eapply Permutation_in; eauto|apply eqb_refl].
Qed.

Lemma same_future_of_perm (F G : list T) : Permutation F G -> same_future F G.
Proof.
  intros H t. split; intros (f & Hf & E); exists f; split; auto; [eapply Permutation_in; eauto|eapply Permutation_in; [apply Permutation_sym|]; eauto].
Qed.

Theorem ac_eqb_spec (F G : list T) : antichain F -> antichain G -> (ac_eqb F G = true <-> same_future F G).
Proof.
  intros HF HG. split; intros H.
  - apply same_future_of_perm, ac_eqb_perm; auto.
  - apply perm_ac_eqb, same_future_perm; auto.
Qed.

(** Without the antichain hypotheses equality still implies the same future. *)
Lemma ac_eqb_incl (F G : list T) t : ac_eqb F G = true -> beyond F t -> beyond G t.
Proof.
  unfold ac_eqb. intros H (f & Hf & E). apply andb_true_iff in H as [HL H]. apply Nat.eqb_eq in HL. apply orb_true_iff in H as [H|H].
  - rewrite <- (forallb_combine_eq F G HL H). exists f; auto.
  - rewrite forallb_forall in H. specialize (H f Hf). apply existsb_exists in H as (g & Hg & Eg). destruct (eqb_spec f g) as [->|]; [|discriminate]. exists g; auto.
Qed.
End DescriptionP.
