(** Two ways to share out the pairs of a join. *)
From Verif Require Export Spec.HalvesSpec Model.CalculusM Proofs.HalfJoinP Proofs.LatticeP Proofs.PointStampP.

(** ** Functions of two collections that are additive in both *)
Section Biadditive.
Context {A B C S : Type} {OC : Ord C} {DS : Diff S}.
Record biadditive (J : list A -> list B -> list (C * S)) : Prop := {
  ba_nil_l : forall c, same_weights (J [] c) []; ba_nil_r : forall c, same_weights (J c []) [];
  ba_app_l : forall a b c, same_weights (J (a ++ b) c) (J a c ++ J b c);
  ba_app_r : forall a b c, same_weights (J a (b ++ c)) (J a b ++ J a c)
}.
Lemma biadditive_ext J J' : biadditive J -> biadditive J' -> (forall a b, same_weights (J [a] [b]) (J' [a] [b])) -> forall c1 c2, same_weights (J c1 c2) (J' c1 c2).
Proof.
  intros H H' HE c1 c2. induction c1 as [|a c1 IH].
  - eapply same_weights_trans; [apply (ba_nil_l _ H)|apply same_weights_sym, (ba_nil_l _ H')].
  - change (a :: c1) with ([a] ++ c1). eapply same_weights_trans; [apply (ba_app_l _ H)|]. eapply same_weights_trans; [|apply same_weights_sym, (ba_app_l _ H')].
    apply same_weights_app; auto. clear IH. induction c2 as [|b c2 IH].
    + eapply same_weights_trans; [apply (ba_nil_r _ H)|apply same_weights_sym, (ba_nil_r _ H')].
    + change (b :: c2) with ([b] ++ c2). eapply same_weights_trans; [apply (ba_app_r _ H)|]. eapply same_weights_trans; [|apply same_weights_sym, (ba_app_r _ H')].
      apply same_weights_app; auto.
Qed.
Lemma biadditive_both J J' : biadditive J -> biadditive J' -> biadditive (fun a b => J a b ++ J' a b).
Proof.
  intros H H'. constructor.
  - intros c x. rewrite weight_app, (ba_nil_l _ H c x), (ba_nil_l _ H' c x). apply dplus_0_l.
  - intros c x. rewrite weight_app, (ba_nil_r _ H c x), (ba_nil_r _ H' c x). apply dplus_0_l.
  - intros a b c x. rewrite !weight_app, (ba_app_l _ H a b c x), (ba_app_l _ H' a b c x), !weight_app. dperm.
  - intros a b c x. rewrite !weight_app, (ba_app_r _ H a b c x), (ba_app_r _ H' a b c x), !weight_app. dperm.
Qed.
End Biadditive.
Section Biadditive2.
Context {A B C S : Type} {OC : Ord C} {DS : Diff S}.
Lemma biadditive_flip (J : list A -> list B -> list (C * S)) : biadditive J -> biadditive (fun b a => J a b).
Proof. intros H. constructor; intros; apply H. Qed.
Lemma biadditive_post {C' S'} {OC' : Ord C'} {DS' : Diff S'} (f : list (C * S) -> list (C' * S')) (J : list A -> list B -> list (C * S)) : biadditive J ->
  (forall a b, same_weights a b -> same_weights (f a) (f b)) -> (forall a b, f (a ++ b) = f a ++ f b) -> f [] = [] -> biadditive (fun a b => f (J a b)).
Proof.
  intros H F1 F2 F3. constructor; intros.
  - rewrite <- F3. apply F1, H.
  - rewrite <- F3. apply F1, H.
  - rewrite <- F2. apply F1, H.
  - rewrite <- F2. apply F1, H.
Qed.
Lemma biadditive_pre {A' B'} (f : list A' -> list A) (g : list B' -> list B) (J : list A -> list B -> list (C * S)) : biadditive J ->
  (forall a b, f (a ++ b) = f a ++ f b) -> f [] = [] -> (forall a b, g (a ++ b) = g a ++ g b) -> g [] = [] -> biadditive (fun a b => J (f a) (g b)).
Proof.
  intros H F1 F2 G1 G2. constructor; intros; rewrite ?F1, ?F2, ?G1, ?G2; apply H.
Qed.
End Biadditive2.

Section Halves.
Context {K V1 V2 D T R1 R2 R3 : Type} {OK : Ord K} {OV1 : Ord V1} {OV2 : Ord V2} {OD : Ord D} {TT : Time T}
  {D1 : Diff R1} {D2 : Diff R2} {D3 : Diff R3} {MU : Multiply R1 R2 R3}.
Lemma join_biadditive (result : K -> V1 -> V2 -> list D) : biadditive (C:=D*T) (join_updates (MU:=MU) (T:=T) result).
Proof.
  constructor; intros.
  - intros x; reflexivity.
  - rewrite join_updates_nil_r. intros x; reflexivity.
  - rewrite join_updates_app_l. apply same_weights_refl.
  - apply join_updates_app_r.
Qed.
Lemma answers_biadditive comparison (f : K -> V1 -> V2 -> D) : biadditive (C:=D*T*T) (answers (MU:=MU) comparison f).
Proof.
  constructor; intros.
  - intros x; reflexivity.
  - intros x. unfold answers. rewrite weight_flat_map. apply dsum_map_zero. intros p _. reflexivity.
  - rewrite answers_app_l. apply same_weights_refl.
  - apply answers_app_r.
Qed.
Lemma at_their_times_congr (a b : list (D * T * T * R3)) : same_weights (A:=D*T*T) a b -> same_weights (A:=D*T) (at_their_times a) (at_their_times b).
Proof. intros H. exact (map_same_weights (A:=D*T*T) (B:=D*T) (fun x => (fst (fst x), snd (fst x))) a b H). Qed.
Variable MU' : Multiply R2 R1 R3.
Hypothesis HM : forall a b, dmul (Multiply:=MU') b a = dmul (Multiply:=MU) a b.
Variables strictly weakly : T -> T -> bool.
Hypothesis HO : complementary strictly weakly.
Variable result : K -> V1 -> V2 -> D.

Lemma halves_ok (c1 : list (K * V1 * T * R1)) (c2 : list (K * V2 * T * R2)) :
  same_weights (A:=D*T) (at_their_times (answers (MU:=MU) strictly result (proposals_of c1) c2) ++ at_their_times (answers (MU:=MU') weakly (fun k v2 v1 => result k v1 v2) (proposals_of c2) c1))
    (join_updates (MU:=MU) (fun k v1 v2 => [result k v1 v2]) c1 c2).
Proof.
  apply (biadditive_ext (fun c1 c2 => at_their_times (answers (MU:=MU) strictly result (proposals_of c1) c2) ++ at_their_times (answers (MU:=MU') weakly (fun k v2 v1 => result k v1 v2) (proposals_of c2) c1))
    (join_updates (MU:=MU) (fun k v1 v2 => [result k v1 v2]))).
  - apply biadditive_both.
    + apply (biadditive_post at_their_times (fun c1 c2 => answers (MU:=MU) strictly result (proposals_of c1) c2)); [|apply at_their_times_congr|intros; apply map_app|auto].
      apply (biadditive_pre proposals_of (fun c => c) (answers (MU:=MU) strictly result)); auto; [apply answers_biadditive|intros; apply map_app].
    + apply (biadditive_flip (fun c2 c1 => at_their_times (answers (MU:=MU') weakly (fun k v2 v1 => result k v1 v2) (proposals_of c2) c1))).
      apply (biadditive_post at_their_times (fun c2 c1 => answers (MU:=MU') weakly (fun k v2 v1 => result k v1 v2) (proposals_of c2) c1)).
      * apply (biadditive_pre proposals_of (fun c => c) (answers (MU:=MU') weakly (fun k v2 v1 => result k v1 v2))); auto; [|intros; apply map_app].
        constructor; intros.
        -- intros x; reflexivity.
        -- intros x. unfold answers. rewrite weight_flat_map. apply dsum_map_zero. intros p _. reflexivity.
        -- unfold answers. rewrite flat_map_app. apply same_weights_refl.
        -- induction a as [|p a IH]; [intros x; reflexivity|]. intros x. pose proof (IH x) as IHx. unfold answers in *. cbn [flat_map]. rewrite flat_map_app, !weight_app in *. rewrite IHx. dperm.
      * intros a b H. exact (map_same_weights (A:=D*T*T) (B:=D*T) (fun x => (fst (fst x), snd (fst x))) a b H).
      * intros; apply map_app.
      * auto.
  - apply join_biadditive.
  - intros [[[k1 v1] t1] r1] [[[k2 v2] t2] r2]. unfold answers, join_updates. cbn [proposals_of map flat_map answer fst snd app]. rewrite (HO t2 t1), HM.
    assert (Ek : eqb k2 k1 = eqb k1 k2) by (destruct (eqb_spec k2 k1), (eqb_spec k1 k2); congruence). rewrite Ek.
    unfold join_pair. destruct (eqb_spec k1 k2) as [<-|]; [|intros x; reflexivity]. cbn [andb map app].
    destruct (weakly t1 t2); cbn [negb app at_their_times map fst snd]; [|rewrite (join_comm t2 t1)]; intros x; reflexivity.
Qed.
End Halves.

(** ** AltNeu *)
Section AltNeuTime.
Context {T : Type} {TT : Time T}.
Lemma an_tle_le (x y : T * bool) : an_le eqb tle x y = true -> le x y.
Proof.
  destruct x as [a n], y as [b m]. unfold an_le. cbn [fst snd]. intros H. apply le_lteq. rewrite lt_pair. destruct (eqb_spec a b) as [->|Hne].
  - destruct n, m; try discriminate; auto. left. right. split; auto. reflexivity.
  - apply tle_le, le_lteq in H as [H|H]; [auto|contradiction].
Qed.
Lemma an_tmin_le (x : T * bool) : an_le eqb tle (alt tmin) x = true.
Proof. destruct x as [a n]. unfold an_le, alt. cbn [fst snd]. destruct (eqb tmin a); auto. apply tmin_le. Qed.
Definition Lattice_altneu : Lattice (T * bool) := lattice_from _ _ _ (an_is_lattice eqb tle join meet (fun x y => eqb_eq x y) is_lattice_of).
Definition Time_altneu : Time (T * bool) := {| time_ord := Ord_prod; time_lattice := Lattice_altneu; tle_le := an_tle_le; tmin := alt tmin; tmin_le := an_tmin_le |}.
End AltNeuTime.

Section DeltaQuery.
Context {K V1 V2 D T R1 R2 R3 : Type} {OK : Ord K} {OV1 : Ord V1} {OV2 : Ord V2} {OD : Ord D} {TT : Time T} {TO : TotalTime T}
  {D1 : Diff R1} {D2 : Diff R2} {D3 : Diff R3} {A1 : Abelian R1} {A2 : Abelian R2} {A3 : Abelian R3} {MU : Multiply R1 R2 R3}.
Variable result : K -> V1 -> V2 -> list D.
Local Existing Instance Time_altneu.

Lemma integrate_congr (a b : list (D * (T * bool) * R3)) : same_weights (A:=D*(T*bool)) a b -> same_weights (A:=D*T) (integrate a) (integrate b).
Proof.
  intros H. apply (map_same_weights (A:=D*(T*bool)) (B:=D*T) (fun x => (fst x, fst (snd x)))).
  exact (filter_same_weights (A:=D*(T*bool)) (fun x => negb (snd (snd x))) a b H).
Qed.
Lemma dmul_neg_l (a : R1) (b : R2) : dmul (dneg a) b = dneg (dmul (Multiply:=MU) a b).
Proof. apply dneg_unique. rewrite <- dmul_plus_l, dneg_r. apply dmul_0_l. Qed.
Lemma dmul_neg_r (a : R1) (b : R2) : dmul a (dneg b) = dneg (dmul (Multiply:=MU) a b).
Proof. apply dneg_unique. rewrite <- dmul_plus_r, dneg_r. apply dmul_0_r. Qed.
Lemma dsum_neg_pair (l : list D) (t t' : T * bool) (r : R3) : t = t' ->
  same_weights (A:=D*T) (integrate (map (fun d => (d, t, r)) l ++ map (fun d => (d, t', dneg r)) l)) [].
Proof.
  intros <- x. change (@nil (D * T * R3)) with (integrate (@nil (D * (T * bool) * R3))). apply integrate_congr. intros y. rewrite weight_app. clear x.
  induction l as [|d l IH]; cbn [map]; [apply dplus_0_l|]. rewrite !weight_cons'. cbn [fst snd]. rewrite dplus_swap4. rewrite IH. destruct (eqb (d, t) y); rewrite ?dneg_r; rewrite ?dplus_0_l; auto.
Qed.
Lemma integrate_alt (l : list D) (t : T) (r : R3) : integrate (map (fun d => (d, alt t, r)) l) = map (fun d => (d, t, r)) l.
Proof. induction l as [|d l IH]; auto. unfold integrate in *. cbn [map filter fst snd alt negb]. rewrite IH. auto. Qed.
Lemma integrate_neu (l : list D) (t : T) (r : R3) : integrate (map (fun d => (d, neu t, r)) l) = [].
Proof. induction l as [|d l IH]; auto. Qed.
Lemma integrate_app (a b : list (D * (T * bool) * R3)) : integrate (a ++ b) = integrate a ++ integrate b.
Proof. unfold integrate. rewrite filter_app, map_app. auto. Qed.

(** the changes of the first with what came strictly before, and of the second with what came no later *)
Lemma delta_query_ok (c1 : list (K * V1 * T * R1)) (c2 : list (K * V2 * T * R2)) :
  same_weights (A:=D*T) (integrate (join_updates (MU:=MU) result (differentiate c1) (enter_neu c2)) ++ integrate (join_updates (MU:=MU) result (enter_alt c1) (differentiate c2)))
    (join_updates (MU:=MU) result c1 c2).
Proof.
  apply (biadditive_ext (fun c1 c2 => integrate (join_updates (MU:=MU) result (differentiate c1) (enter_neu c2)) ++ integrate (join_updates (MU:=MU) result (enter_alt c1) (differentiate c2))) (join_updates (MU:=MU) result)).
  - apply biadditive_both.
    + apply (biadditive_post integrate (fun c1 c2 => join_updates (MU:=MU) result (differentiate c1) (enter_neu c2))); [|apply integrate_congr|apply integrate_app|auto].
      apply (biadditive_pre differentiate enter_neu (join_updates (MU:=MU) result)); auto; [apply join_biadditive|intros; apply flat_map_app|intros; apply map_app].
    + apply (biadditive_post integrate (fun c1 c2 => join_updates (MU:=MU) result (enter_alt c1) (differentiate c2))); [|apply integrate_congr|apply integrate_app|auto].
      apply (biadditive_pre enter_alt differentiate (join_updates (MU:=MU) result)); auto; [apply join_biadditive|intros; apply map_app|intros; apply flat_map_app].
  - apply join_biadditive.
  - intros [[[k1 v1] t1] r1] [[[k2 v2] t2] r2]. unfold join_updates. cbn [differentiate enter_neu enter_alt map flat_map app fst snd join_pair].
    unfold join_pair. destruct (eqb_spec k1 k2) as [<-|]; [|intros x; reflexivity]. rewrite !app_nil_r, dmul_neg_l, dmul_neg_r.
    set (l := result k1 v1 v2). set (r := dmul r1 r2).
    assert (J : forall (a b : T) n m, join (Lattice:=time_lattice (Time:=Time_altneu)) (a, n) (b, m) = an_join eqb join (a, n) (b, m)) by reflexivity.
    assert (Jle : forall a b : T, tle a b = true -> join a b = b) by (intros a b H; apply tle_antisym; [apply join_lub; [auto|apply tle_refl]|apply join_ub_r]).
    assert (Hj : forall (a b : T) n m, a <> b -> tle a b = true -> join (Lattice:=time_lattice (Time:=Time_altneu)) (a, n) (b, m) = (b, m) /\ join (Lattice:=time_lattice (Time:=Time_altneu)) (b, m) (a, n) = (b, m)).
    { intros a b n m Hne Hl. rewrite !J. unfold an_join. cbn [fst snd]. rewrite (join_comm b a), (Jle a b Hl), eqb_refl. destruct (eqb_spec b a); [congruence|]. cbn [orb]. destruct m; auto. }
    assert (Heq : forall (a : T) n m, join (Lattice:=time_lattice (Time:=Time_altneu)) (a, n) (a, m) = (a, n || m)).
    { intros a n m. rewrite J. unfold an_join. cbn [fst snd]. rewrite (Jle a a (tle_refl a)), eqb_refl. destruct n, m; auto. }
    unfold alt, neu. destruct (eqb_spec t1 t2) as [<-|Hne].
    + rewrite !Heq. cbn [orb]. rewrite (Jle t1 t1 (tle_refl t1)), !integrate_app. fold (neu t1). fold (alt t1). rewrite !integrate_neu, integrate_alt. cbn [app]. rewrite app_nil_r. apply same_weights_refl.
    + destruct (tle_total t1 t2) as [Hl|Hl].
      * pose proof (fun n m => Hj t1 t2 n m Hne Hl) as H. rewrite (proj1 (H false true)), (proj1 (H true true)), (proj1 (H false false)), (Jle _ _ Hl), !integrate_app. fold (neu t2). fold (alt t2).
        rewrite !integrate_neu, integrate_alt. cbn [app]. rewrite app_nil_r. apply same_weights_refl.
      * pose proof (fun n m => Hj t2 t1 n m (not_eq_sym Hne) Hl) as H. rewrite (proj2 (H true false)), (proj2 (H true true)), (proj2 (H false false)), (join_comm t1 t2), (Jle _ _ Hl). fold (alt t1).
        eapply same_weights_trans; [apply same_weights_app; [apply same_weights_refl|apply (dsum_neg_pair l (alt t1) (alt t1) r eq_refl)]|].
        rewrite app_nil_r, integrate_app. fold (neu t1). rewrite integrate_neu, integrate_alt, app_nil_r. apply same_weights_refl.
Qed.
End DeltaQuery.
