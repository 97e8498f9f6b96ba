(** The operators on collections act linearly on accumulations. *)
From Verif Require Export Base.Collections Spec.LinearSpec Proofs.BilinearP Proofs.DeferredP.

Section Sum.
Context {D T R S E : Type} {OD : Ord D} {TT : Time T} {DR : Diff R} {DS : Diff S} {OE : Ord E}.
Lemma sum_one (f : D -> R -> S) (ds : list D) d r (b : bool) : (forall a, f a dzero = dzero) -> NoDup ds -> In d ds ->
  dsum (map (fun a => f a (if eqb d a && b then r else dzero)) ds) = if b then f d r else dzero.
Proof.
  intros f0 HN HI. destruct b.
  2:{ rewrite dsum_map_zero; auto. intros a _. rewrite andb_false_r. auto. }
  induction HN as [|a ds Ha HN IH]; [contradiction|]. cbn [map]. rewrite dsum_cons, andb_true_r. destruct (eqb_spec d a) as [->|Hne].
  - rewrite dsum_map_zero, dplus_0_r; auto. intros x Hx. destruct (eqb_spec a x) as [->|]; [contradiction|]. auto.
  - rewrite f0, dplus_0_l. apply IH. destruct HI; [congruence|auto].
Qed.
(** An operator whose output for one update is additive in its difference *)
Lemma linear (h : D * T * R -> list (E * T * S)) (f : D -> R -> S) e t c ds : covers ds c ->
  (forall a, f a dzero = dzero) -> (forall a r1 r2, f a (dplus r1 r2) = dplus (f a r1) (f a r2)) ->
  (forall u, acc (h u) e t = if tle (snd (fst u)) t then f (fst (fst u)) (snd u) else dzero) ->
  acc (flat_map h c) e t = dsum (map (fun d => f d (acc c d t)) ds).
Proof.
  intros [HN HC] f0 fp Hh. induction HC as [|u c Hu HC IH]; simpl.
  - symmetry. rewrite acc_nil. apply dsum_map_zero. intros d _. rewrite acc_nil. auto.
  - rewrite acc_app, IH, Hh. rewrite <- (sum_one f ds (fst (fst u)) (snd u) (tle (snd (fst u)) t)) by auto.
    rewrite <- dsum_map_plus. apply dsum_map_ext. intros d _. rewrite <- fp, acc_cons'. auto.
Qed.
End Sum.

Section Streams.
Context {T X Y : Type}.
Lemma updates_each {D E R S} (f : list (D * T * R) -> list (E * T * S)) s : (forall a b, f (a ++ b) = f a ++ f b) -> f [] = [] ->
  updates (each f s) = f (updates s).
Proof. intros Hf H0. unfold updates. induction s as [|m s IH]; simpl; auto. rewrite Hf, IH. auto. Qed.
Lemma each_flat {D E R S} (h : D * T * R -> list (E * T * S)) s : updates (each (flat_map h) s) = flat_map h (updates s).
Proof. apply (updates_each (flat_map h)); auto. intros; apply flat_map_app. Qed.
Lemma map_flat {A B} (f : A -> B) l : map f l = flat_map (fun x => [f x]) l.
Proof. induction l; simpl; congruence. Qed.
End Streams.

Section Timed.
Context {D T R : Type} {TT : Time T}.
Lemma each_timed {E S} (h : D * T * R -> list (E * T * S)) (s : stream T (D * T * R)) :
  (forall u v, In v (h u) -> tle (snd (fst u)) (snd (fst v)) = true) -> well_timed s -> well_timed (each (flat_map h) s).
Proof.
  intros Hh H. unfold well_timed, each in *. rewrite Forall_map. eapply Forall_impl; [|exact H]. intros m Hm. simpl.
  rewrite Forall_forall in *. intros v Hv. apply in_flat_map in Hv as (u & Hu & Hv). eapply tle_trans; [apply (Hm u Hu)|apply Hh; auto].
Qed.
End Timed.

Section Concat.
Context {D T R : Type} {OD : Ord D} {TT : Time T} {DR : Diff R}.
Lemma concat_acc (s1 s2 s : stream T (D * T * R)) : c_concat s1 s2 s -> forall d t, acc (updates s) d t = dplus (acc (updates s1) d t) (acc (updates s2) d t).
Proof.
  induction 1 as [|m s1 s2 s _ IH|m s1 s2 s _ IH]; intros d t; unfold updates in *; simpl.
  - rewrite acc_nil, dplus_0_l. auto.
  - rewrite !acc_app, IH, dplus_assoc. auto.
  - rewrite !acc_app, IH, dplus_left_comm. auto.
Qed.
Lemma concat_timed (s1 s2 s : stream T (D * T * R)) : c_concat s1 s2 s -> well_timed s1 -> well_timed s2 -> well_timed s.
Proof.
  induction 1 as [|m s1 s2 s _ IH|m s1 s2 s _ IH]; intros H1 H2; auto.
  - inversion H1; subst. constructor; auto. apply IH; auto.
  - inversion H2; subst. constructor; auto. apply IH; auto.
Qed.
Lemma concatenate_acc (ss : list (stream T (D * T * R))) s : c_concatenate ss s -> forall d t, acc (updates s) d t = dsum (map (fun s => acc (updates s) d t) ss).
Proof.
  induction 1 as [|s ss r r' _ IH HC]; intros d t; simpl; [apply acc_nil|]. rewrite (concat_acc _ _ _ HC), IH. auto.
Qed.
Lemma concatenate_timed (ss : list (stream T (D * T * R))) s : c_concatenate ss s -> Forall well_timed ss -> well_timed s.
Proof.
  induction 1 as [|s ss r r' _ IH HC]; intros H; [constructor|]. inversion H; subst. eapply concat_timed; eauto.
Qed.
End Concat.

(** ** Retiming *)
Section Retime.
Context {D T T' R : Type} {OD : Ord D} {TT : Time T} {TT' : Time T'} {DR : Diff R}.
(** Updates whose times are moved by [g], possibly dropped: seen at [t'] they are those that were at times
    at or before [p d], if that describes the times moved to at or before [t']. *)
Lemma retime (g : D -> T -> option T') (c : list (D * T * R)) d t' (q : option T) :
  (forall u, In u c -> fst (fst u) = d -> (match g d (snd (fst u)) with Some x => tle x t' | None => false end) =
             (match q with Some p => tle (snd (fst u)) p | None => false end)) ->
  acc (flat_map (fun u => match g (fst (fst u)) (snd (fst u)) with Some x => [(fst (fst u), x, snd u)] | None => [] end) c) d t' =
  match q with Some p => acc c d p | None => dzero end.
Proof.
  intros H. induction c as [|u c IH]; simpl; [destruct q; auto|]. rewrite acc_app, IH by (intros v Hv; apply H; right; auto).
  assert (E : acc (match g (fst (fst u)) (snd (fst u)) with Some x => [(fst (fst u), x, snd u)] | None => [] end) d t' =
    if eqb (fst (fst u)) d && (match q with Some p => tle (snd (fst u)) p | None => false end) then snd u else dzero).
  { destruct (eqb_spec (fst (fst u)) d) as [Ed|Hne].
    - rewrite <- (H u (or_introl eq_refl) Ed). rewrite <- Ed. destruct (g (fst (fst u)) (snd (fst u))) as [x|]; [|reflexivity].
      rewrite acc_cons', acc_nil, dplus_0_r. simpl. rewrite eqb_refl. auto.
    - destruct (g _ _); auto. rewrite acc_cons', acc_nil, dplus_0_r. simpl. destruct (eqb_spec (fst (fst u)) d); [contradiction|auto]. }
  rewrite E. destruct q as [p|]; [rewrite acc_cons'; auto|rewrite andb_false_r, dplus_0_l; auto].
Qed.
End Retime.

Lemma product_is_refines {T1 T2} {TT1 : Time T1} {TT2 : Time T2} : refines (T1:=T1) (T2:=T1*T2) product_refines.
Proof.
  split; [|split].
  - intros t [u1 u2]. simpl. unfold LatticeM.product_le. simpl. rewrite tmin_le, andb_true_r. auto.
  - auto.
  - intros [t1 t2] [u1 u2] H. simpl in *. unfold LatticeM.product_le in H. simpl in H. apply andb_prop in H as [H _]. auto.
Qed.
Lemma unit_is_refines {T2} {TT2 : Time T2} : refines (T1:=unit) (T2:=T2) unit_refines.
Proof. split; [|split]; simpl; auto. intros [] u. rewrite tmin_le. auto. intros []. auto. Qed.

Section Semi.
Context {K V T R1 R2 R3 : Type} {OK : Ord K} {OV : Ord V} {TT : Time T} {D1 : Diff R1} {D2 : Diff R2} {D3 : Diff R3} {MU : Multiply R1 R2 R3}.
Lemma acc_join_semi (c1 : list (K * V * T * R1)) (c2 : list (K * unit * T * R2)) k v t :
  acc (join_updates (MU:=MU) semi c1 c2) (k, v) t = dmul (acc c1 (k, v) t) (acc c2 (k, tt) t).
Proof.
  induction c1 as [|u1 c1 IH]; [symmetry; apply dmul_0_l|].
  change (u1 :: c1) with ([u1] ++ c1). rewrite join_updates_app_l, !acc_app, dmul_plus_l, IH. f_equal. clear IH.
  induction c2 as [|u2 c2 IH]; [rewrite join_updates_nil_r; symmetry; apply dmul_0_r|].
  unfold join_updates in *. simpl in *. rewrite app_nil_r in *. rewrite acc_app, IH.
  change (u2 :: c2) with ([u2] ++ c2). rewrite acc_app, dmul_plus_r. f_equal. clear IH.
  destruct u1 as [[[k1 v1] t1] r1], u2 as [[[k2 []] t2] r2]. simpl.
  rewrite !acc_cons', !acc_nil, !dplus_0_r. simpl.
  assert (E2 : eqb (k2, tt) (k, tt) = eqb k2 k).
  { destruct (eqb_spec k2 k) as [->|Hn]; [apply eqb_refl|]. destruct (eqb_spec (k2, tt) (k, tt)) as [He|]; [inversion He; contradiction|auto]. }
  rewrite E2. destruct (eqb_spec k1 k2) as [->|Hne].
  - rewrite acc_cons', acc_nil, dplus_0_r. simpl. rewrite join_tle_b.
    destruct (eqb_spec (k2, v1) (k, v)) as [He|Hn]; simpl.
    + inversion He; subst. rewrite eqb_refl. simpl. destruct (tle t1 t), (tle t2 t); simpl; rewrite ?dmul_0_l, ?dmul_0_r; auto.
    + rewrite dmul_0_l. auto.
  - rewrite acc_nil. destruct (eqb_spec (k1, v1) (k, v)) as [He|]; simpl; [|rewrite dmul_0_l; auto].
    inversion He; subst. destruct (eqb_spec k2 k) as [->|]; [contradiction|]. simpl. rewrite dmul_0_r. auto.
Qed.
End Semi.
