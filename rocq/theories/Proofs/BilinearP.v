(** Bilinear algebra of joins. *)
From Verif Require Export Base.Collections Spec.JoinSpec.

(** ** Rearranging sums: [dperm] proves equalities of sums of the same terms *)
Lemma dfront_next {R} {DR : Diff R} (y r x z : R) : r = dplus x z -> dplus y r = dplus x (dplus y z).
Proof. intros ->. apply dplus_left_comm. Qed.
Lemma dperm_step {R} {DR : Diff R} (x l r z : R) : r = dplus x z -> l = z -> dplus x l = r.
Proof. intros -> ->. reflexivity. Qed.
Ltac dfront := first [reflexivity | apply dplus_comm | eapply dfront_next; dfront].
Ltac dperm := rewrite ?dplus_assoc; repeat first [reflexivity | eapply dperm_step; [dfront|]].

Section LinearMaps.
Context {A R B S : Type} {OA : Ord A} {DR : Diff R} {OB : Ord B} {DS : Diff S}.
(** [f a r]: what one weighted item turns into, additive in the weight *)
Variable f : A -> R -> list (B * S).
Hypothesis f_zero : forall a b, weight (f a dzero) b = dzero.
Hypothesis f_plus : forall a r1 r2 b, weight (f a (dplus r1 r2)) b = dplus (weight (f a r1) b) (weight (f a r2) b).

Lemma flat_map_same_weights (l1 l2 : list (A * R)) : same_weights l1 l2 ->
  same_weights (flat_map (fun x => f (fst x) (snd x)) l1) (flat_map (fun x => f (fst x) (snd x)) l2).
Proof.
  intros H b.
  assert (E : forall l, weight (flat_map (fun x => f (fst x) (snd x)) l) b = lsum (fun a r => weight (f a r) b) l).
  { induction l as [|x l IH]; simpl; auto. rewrite weight_app, IH. reflexivity. }
  rewrite !E. apply lsum_same_weights; auto.
Qed.
End LinearMaps.

Section Bilinear.
Context {K V1 V2 D T R1 R2 R3 : Type} {OK : Ord K} {OV1 : Ord V1} {OV2 : Ord V2} {OD : Ord D} {TT : Time T}
  {D1 : Diff R1} {D2 : Diff R2} {D3 : Diff R3} {MU : Multiply R1 R2 R3}.
Variable result : K -> V1 -> V2 -> list D.
Notation U1 := (K * V1 * T * R1)%type.
Notation U2 := (K * V2 * T * R2)%type.
Notation jn := (join_updates (MU:=MU) result).

Lemma join_updates_app_l (a b : list U1) (c : list U2) : jn (a ++ b) c = jn a c ++ jn b c.
Proof. unfold join_updates. apply flat_map_app. Qed.
Lemma join_updates_nil_r (a : list U1) : jn a [] = [].
Proof. unfold join_updates. induction a; simpl; auto. Qed.
Lemma join_updates_cons_l (u : U1) (a : list U1) (c : list U2) : jn (u :: a) c = jn [u] c ++ jn a c.
Proof. exact (join_updates_app_l [u] a c). Qed.
Lemma join_updates_app_r (a : list U1) (b c : list U2) : same_weights (A:=D*T) (jn a (b ++ c)) (jn a b ++ jn a c).
Proof.
  induction a as [|u a IH]; [apply same_weights_refl|]. rewrite !(join_updates_cons_l u a). intros x.
  unfold join_updates at 1. simpl. rewrite app_nil_r, flat_map_app. rewrite !weight_app, IH, weight_app.
  rewrite ?weight_nil, ?dplus_0_r. apply dplus_swap4.
Qed.

Lemma weight_scaled (l : list D) (t : T) (r : R3) (x : D * T) :
  weight (A:=D*T) (map (fun d => (d, t, r)) l) x = dsum (map (fun d => if eqb (d, t) x then r else dzero) l).
Proof. induction l as [|d l IH]; simpl; auto. rewrite weight_cons', IH. reflexivity. Qed.

(** additive on the right *)
Lemma join_pair_zero_r (u1 : U1) a x : weight (A:=D*T) (join_pair (MU:=MU) result u1 (a, dzero)) x = dzero.
Proof.
  destruct u1 as [[[k v] t] r]. destruct a as [[k2 v2] t2]. simpl. destruct (eqb k k2); [|reflexivity].
  rewrite weight_scaled. apply dsum_map_zero. intros d _. rewrite dmul_0_r. destruct (eqb _ _); auto.
Qed.
Lemma join_pair_plus_r (u1 : U1) a r1 r2 x : weight (A:=D*T) (join_pair (MU:=MU) result u1 (a, dplus r1 r2)) x =
  dplus (weight (A:=D*T) (join_pair (MU:=MU) result u1 (a, r1)) x) (weight (A:=D*T) (join_pair (MU:=MU) result u1 (a, r2)) x).
Proof.
  destruct u1 as [[[k v] t] r]. destruct a as [[k2 v2] t2]. simpl. destruct (eqb k k2); [|rewrite weight_nil, dplus_0_l; auto].
  rewrite !weight_scaled, <- dsum_map_plus. apply dsum_map_ext. intros d _. rewrite dmul_plus_r. destruct (eqb _ _); auto.
  rewrite dplus_0_l; auto.
Qed.
Lemma join_pair_zero_l a (u2 : U2) x : weight (A:=D*T) (join_pair (MU:=MU) result (a, dzero) u2) x = dzero.
Proof.
  destruct u2 as [[[k v] t] r]. destruct a as [[k2 v2] t2]. simpl. destruct (eqb k2 k); [|reflexivity].
  rewrite weight_scaled. apply dsum_map_zero. intros d _. rewrite dmul_0_l. destruct (eqb _ _); auto.
Qed.
Lemma join_pair_plus_l a r1 r2 (u2 : U2) x : weight (A:=D*T) (join_pair (MU:=MU) result (a, dplus r1 r2) u2) x =
  dplus (weight (A:=D*T) (join_pair (MU:=MU) result (a, r1) u2) x) (weight (A:=D*T) (join_pair (MU:=MU) result (a, r2) u2) x).
Proof.
  destruct u2 as [[[k v] t] r]. destruct a as [[k2 v2] t2]. simpl. destruct (eqb k2 k); [|rewrite weight_nil, dplus_0_l; auto].
  rewrite !weight_scaled, <- dsum_map_plus. apply dsum_map_ext. intros d _. rewrite dmul_plus_l. destruct (eqb _ _); auto.
  rewrite dplus_0_l; auto.
Qed.
Lemma join_updates_congr_r (a : list U1) (b c : list U2) : same_weights (A:=K*V2*T) b c -> same_weights (A:=D*T) (jn a b) (jn a c).
Proof.
  intros H. induction a as [|u a IH]; [apply same_weights_refl|].
  rewrite !(join_updates_cons_l u a). apply same_weights_app; auto.
  unfold join_updates. simpl. rewrite !app_nil_r.
  pose proof (flat_map_same_weights (A:=K*V2*T) (B:=D*T) (fun y r => join_pair result u (y, r))
                (fun y x => join_pair_zero_r u y x) (fun y r1 r2 x => join_pair_plus_r u y r1 r2 x) b c H) as G.
  intros x. specialize (G x). cbv beta in G. rewrite !(flat_map_ext (fun x0 : U2 => join_pair result u (fst x0, snd x0)) (join_pair result u)) in G;
    [exact G| |]; intros [y r]; reflexivity.
Qed.

(** The two arguments of a join play the same role. *)
Lemma join_updates_flip (a : list U1) (b : list U2) :
  same_weights (A:=D*T) (jn a b) (flat_map (fun u2 => flat_map (fun u1 => join_pair (MU:=MU) result u1 u2) a) b).
Proof.
  intros x. induction a as [|u a IH].
  - simpl. symmetry. induction b as [|w b IHb]; simpl; auto.
  - rewrite join_updates_cons_l, weight_app, IH. unfold join_updates. simpl. rewrite app_nil_r. clear.
    induction b as [|w b IHb]; simpl; [rewrite weight_nil, dplus_0_l; auto|].
    rewrite !weight_app, <- IHb. apply dplus_swap4.
Qed.
Lemma join_updates_congr_l (a b : list U1) (c : list U2) : same_weights (A:=K*V1*T) a b -> same_weights (A:=D*T) (jn a c) (jn b c).
Proof.
  intros H. eapply same_weights_trans; [apply join_updates_flip|]. eapply same_weights_trans; [|apply same_weights_sym, join_updates_flip].
  induction c as [|w c IH]; simpl; [apply same_weights_refl|]. apply same_weights_app; auto.
  pose proof (flat_map_same_weights (A:=K*V1*T) (B:=D*T) (fun y r => join_pair result (y, r) w)
                (fun y x => join_pair_zero_l y w x) (fun y r1 r2 x => join_pair_plus_l y r1 r2 w x) a b H) as G.
  intros x. specialize (G x). cbv beta in G. rewrite !(flat_map_ext (fun x0 : U1 => join_pair result (fst x0, snd x0) w) (fun u1 => join_pair result u1 w)) in G;
    [exact G| |]; intros [y r]; reflexivity.
Qed.

(** ** Accumulations *)
(** An additive functional of a collection's accumulation at a time. *)
Lemma acc_functional {E R S : Type} {OE : Ord E} {DR : Diff R} {DS : Diff S} (f : E -> R -> S)
  (f_zero : forall a, f a dzero = dzero) (f_plus : forall a r1 r2, f a (dplus r1 r2) = dplus (f a r1) (f a r2)) (c c' : list (E * T * R)) t :
  (forall e, acc c e t = acc c' e t) ->
  dsum (map (fun u => if tle (snd (fst u)) t then f (fst (fst u)) (snd u) else dzero) c) =
  dsum (map (fun u => if tle (snd (fst u)) t then f (fst (fst u)) (snd u) else dzero) c').
Proof.
  intros H. set (at_t := fun c : list (E * T * R) => map (fun u => (fst (fst u), snd u)) (filter (fun u => tle (snd (fst u)) t) c)).
  assert (E1 : forall c, dsum (map (fun u => if tle (snd (fst u)) t then f (fst (fst u)) (snd u) else dzero) c) = lsum f (at_t c)).
  { clear. intros c. induction c as [|u c IH]; auto. unfold at_t in *. simpl. destruct (tle (snd (fst u)) t); simpl.
    - unfold lsum in *. simpl. rewrite IH. auto.
    - rewrite IH. apply dplus_0_l. }
  assert (E2 : forall c e, weight (at_t c) e = acc c e t).
  { clear. intros c e. induction c as [|u c IH]; auto. unfold at_t in *. simpl. rewrite acc_cons'.
    destruct (tle (snd (fst u)) t) eqn:Et; simpl; rewrite ?weight_cons', IH; simpl; rewrite ?andb_true_r, ?andb_false_r, ?dplus_0_l; auto. }
  rewrite !E1. apply lsum_same_weights; auto. intros e. rewrite !E2; auto.
Qed.

Lemma acc_join_pair (u1 : U1) (u2 : U2) d t :
  acc (join_pair (MU:=MU) result u1 u2) d t =
  if tle (snd (fst u1)) t && tle (snd (fst u2)) t then
    acc (join_pair (MU:=MU) result (fst (fst u1), t, snd u1) (fst (fst u2), t, snd u2)) d t
  else dzero.
Proof.
  destruct u1 as [[[k1 v1] t1] r1], u2 as [[[k2 v2] t2] r2]. simpl. destruct (eqb k1 k2); [|destruct (_ && _); reflexivity].
  induction (result k1 v1 v2) as [|x l IH]; simpl; [destruct (_ && _); reflexivity|].
  rewrite !acc_cons'. simpl. rewrite IH, join_tle_b, join_idem, tle_refl, andb_true_r.
  destruct (tle t1 t && tle t2 t); [rewrite andb_true_r; auto|rewrite andb_false_r, dplus_0_l; auto].
Qed.

(** The accumulated output depends on the accumulated inputs only, at the same time. *)
Lemma acc_join_one_r (u1 : U1) (c : list U2) d t : acc (jn [u1] c) d t =
  dsum (map (fun u2 => if tle (snd (fst u2)) t then
       (if tle (snd (fst u1)) t then acc (join_pair (MU:=MU) result (fst (fst u1), t, snd u1) (fst (fst u2), t, snd u2)) d t else dzero) else dzero) c).
Proof.
  unfold join_updates. simpl. rewrite app_nil_r. induction c as [|u2 c IH]; simpl; auto.
  rewrite acc_app, IH, acc_join_pair. f_equal. destruct (tle (snd (fst u1)) t), (tle (snd (fst u2)) t); auto.
Qed.
Lemma acc_weight_at {E} {OE : Ord E} {S} {DS : Diff S} (l : list E) (t : T) (r : S) d :
  acc (map (fun x => (x, t, r)) l) d t = dsum (map (fun x => if eqb x d then r else dzero) l).
Proof. induction l as [|x l IH]; simpl; auto. rewrite acc_cons'. simpl. rewrite tle_refl, andb_true_r, IH. auto. Qed.

Lemma acc_join_congr_r (a : list U1) (b c : list U2) t d :
  (forall u, In u a -> tle (snd (fst u)) t = true -> forall e, acc b e t = acc c e t) ->
  acc (jn a b) d t = acc (jn a c) d t.
Proof.
  induction a as [|u a IH]; intros H; [reflexivity|]. rewrite !(join_updates_cons_l u a), !acc_app.
  rewrite IH by (intros w Hw; apply H; right; auto). f_equal. rewrite !acc_join_one_r.
  destruct (tle (snd (fst u)) t) eqn:E.
  - apply (acc_functional (fun e r => acc (join_pair result (fst (fst u), t, snd u) (e, t, r)) d t)).
    + intros [k v]. destruct u as [[[k1 v1] t1] r1]. simpl. destruct (eqb k1 k); auto. rewrite join_idem, acc_weight_at.
      apply dsum_map_zero. intros; rewrite dmul_0_r; destruct (eqb _ _); auto.
    + intros [k v] r1 r2. destruct u as [[[k1 v1] t1] r0]. simpl. destruct (eqb k1 k); [|rewrite !acc_nil, dplus_0_l; auto].
      rewrite join_idem, !acc_weight_at, <- dsum_map_plus. apply dsum_map_ext. intros x _. rewrite dmul_plus_r. destruct (eqb _ _); auto. rewrite dplus_0_l; auto.
    + apply (H u); auto. left; auto.
  - rewrite !dsum_map_zero; auto; intros x _; destruct (tle (snd (fst x)) t); auto.
Qed.
Lemma acc_flip (a : list U1) (b : list U2) d t :
  acc (jn a b) d t = acc (flat_map (fun u2 => flat_map (fun u1 => join_pair (MU:=MU) result u1 u2) a) b) d t.
Proof. apply acc_same_weights, join_updates_flip. Qed.
Lemma acc_join_congr_l (a b : list U1) (c : list U2) t d :
  (forall u, In u c -> tle (snd (fst u)) t = true -> forall e, acc a e t = acc b e t) ->
  acc (jn a c) d t = acc (jn b c) d t.
Proof.
  rewrite !acc_flip. induction c as [|u c IH]; intros H; [reflexivity|]. simpl. rewrite !acc_app.
  rewrite IH by (intros w Hw; apply H; right; auto). f_equal.
  assert (E1 : forall l : list U1, acc (flat_map (fun u1 => join_pair (MU:=MU) result u1 u) l) d t =
    dsum (map (fun u1 => if tle (snd (fst u1)) t then
       (if tle (snd (fst u)) t then acc (join_pair (MU:=MU) result (fst (fst u1), t, snd u1) (fst (fst u), t, snd u)) d t else dzero) else dzero) l)).
  { clear. intros l. induction l as [|u1 l IH]; simpl; auto. rewrite acc_app, IH, acc_join_pair. f_equal. destruct (tle (snd (fst u1)) t), (tle (snd (fst u)) t); auto. }
  rewrite !E1. destruct (tle (snd (fst u)) t) eqn:E.
  - apply (acc_functional (fun e r => acc (join_pair result (e, t, r) (fst (fst u), t, snd u)) d t)).
    + intros [k v]. destruct u as [[[k1 v1] t1] r1]. simpl. destruct (eqb k k1); auto. rewrite join_idem, acc_weight_at.
      apply dsum_map_zero. intros; rewrite dmul_0_l; destruct (eqb _ _); auto.
    + intros [k v] r1 r2. destruct u as [[[k1 v1] t1] r0]. simpl. destruct (eqb k k1); [|rewrite !acc_nil, dplus_0_l; auto].
      rewrite join_idem, !acc_weight_at, <- dsum_map_plus. apply dsum_map_ext. intros x _. rewrite dmul_plus_l. destruct (eqb _ _); auto. rewrite dplus_0_l; auto.
    + apply (H u); auto. left; auto.
  - rewrite !dsum_map_zero; auto; intros x _; destruct (tle (snd (fst x)) t); auto.
Qed.
End Bilinear.

Section Paired.
Context {K V1 V2 T R1 R2 R3 : Type} {OK : Ord K} {OV1 : Ord V1} {OV2 : Ord V2} {TT : Time T}
  {D1 : Diff R1} {D2 : Diff R2} {D3 : Diff R3} {MU : Multiply R1 R2 R3}.

(** The accumulation of the join is the product of the accumulations. *)
Lemma acc_join_paired (c1 : list (K * V1 * T * R1)) (c2 : list (K * V2 * T * R2)) k v1 v2 t :
  acc (join_updates (MU:=MU) paired c1 c2) (k, (v1, v2)) t = dmul (acc c1 (k, v1) t) (acc c2 (k, v2) t).
Proof.
  induction c1 as [|u1 c1 IH]; [symmetry; apply dmul_0_l|].
  change (u1 :: c1) with ([u1] ++ c1). rewrite join_updates_app_l, !acc_app, dmul_plus_l, IH. f_equal. clear IH.
  induction c2 as [|u2 c2 IH]; [rewrite join_updates_nil_r; symmetry; apply dmul_0_r|].
  unfold join_updates in *. simpl in *. rewrite app_nil_r in *. rewrite acc_app, IH.
  change (u2 :: c2) with ([u2] ++ c2). rewrite acc_app, dmul_plus_r. f_equal. clear IH.
  destruct u1 as [[[a b] t1] r1], u2 as [[[a' b'] t2] r2]. rewrite !acc_cons', !acc_nil, !dplus_0_r. simpl.
  unfold paired. destruct (eqb_spec a a') as [<-|N]; simpl.
  - rewrite acc_cons', acc_nil, dplus_0_r. simpl. rewrite join_tle_b.
    destruct (eqb_spec (a, (b, b')) (k, (v1, v2))) as [E|NE].
    + inversion E; subst. rewrite !eqb_refl. simpl. destruct (tle t1 t), (tle t2 t); simpl; rewrite ?dmul_0_l, ?dmul_0_r; auto.
    + simpl. destruct (eqb_spec (a, b) (k, v1)) as [E1|N1]; simpl; [|rewrite dmul_0_l; auto].
      destruct (eqb_spec (a, b') (k, v2)) as [E2|N2]; simpl; [congruence|rewrite dmul_0_r; auto].
  - rewrite acc_nil. destruct (eqb_spec (a, b) (k, v1)) as [E1|N1]; simpl; [|rewrite dmul_0_l; auto].
    destruct (eqb_spec (a', b') (k, v2)) as [E2|N2]; simpl; [congruence|rewrite dmul_0_r; auto].
Qed.
End Paired.
