(** A program's results as of a moment are its results on the inputs as of that moment. *)
From Verif Require Import Model.RenderM Spec.DdirSpec Proofs.DdirP Proofs.DdirMeansP.
Local Open Scope nat_scope.

Lemma nat_join_max (a b : nat) : join a b = Nat.max a b.
Proof.
  apply tle_antisym.
  - apply join_lub; apply nat_tle; lia.
  - apply nat_tle. apply Nat.max_lub; apply nat_tle; [apply join_ub_l|apply join_ub_r].
Qed.

Section Snap.
Variable n : nat.
Local Notation snap := (as_of n).

Lemma snap_cons d m q r c : snap ((d, (m, q), r) :: c) = (if m <=? n then [(d, (0, q), r)] else []) ++ snap c.
Proof. reflexivity. Qed.
Lemma snap_app c1 c2 : snap (c1 ++ c2) = snap c1 ++ snap c2.
Proof. apply flat_map_app. Qed.
Lemma snap_concat cs : snap (concat cs) = concat (map snap cs).
Proof. induction cs as [|c cs IH]; simpl; auto. rewrite snap_app, IH. auto. Qed.
Lemma snap_weight c x : weight (A:=row*itime) (snap c) x =
  lsum (fun (a : row * itime) (r : Z) => if (fst (snd a) <=? n) && eqb (A:=row*itime) (fst a, (0, snd (snd a))) x then r else 0%Z) c.
Proof.
  set (f := fun (a : row * itime) (r : Z) => if (fst (snd a) <=? n) && eqb (A:=row*itime) (fst a, (0, snd (snd a))) x then r else 0%Z).
  induction c as [|u c IH]; [reflexivity|]. destruct u as [[d [m q]] r]. rewrite snap_cons, weight_app, IH.
  change (lsum f ((d, (m, q), r) :: c)) with (f (d, (m, q)) r + lsum f c)%Z. change (dplus ?a ?b) with (a + b)%Z. f_equal. unfold f. cbn [fst snd].
  destruct (m <=? n); cbn [andb]; [|reflexivity]. rewrite weight_cons', weight_nil. cbn [fst snd]. change (dplus ?a ?b) with (a + b)%Z.
  change dzero with 0%Z. destruct (eqb _ x); lia.
Qed.
Lemma snap_same c1 c2 : same_coll c1 c2 -> same_coll (snap c1) (snap c2).
Proof.
  intros H x. rewrite !snap_weight. apply lsum_same_weights; auto.
  - intros a. destruct (_ && _); auto.
  - intros a r1 r2. destruct (_ && _); auto.
Qed.
Lemma snap_acc c d o ps : acc (D:=row) (T:=itime) (snap c) d (o, ps) = acc (D:=row) (T:=itime) c d (n, ps).
Proof.
  induction c as [|u c IH]; [reflexivity|]. destruct u as [[d' [m q]] r]. rewrite snap_cons, (acc_app (D:=row) (T:=itime)), (acc_cons' (D:=row) (T:=itime) _ c), IH. f_equal. cbn [fst snd].
  assert (E : forall a b (p p' : PointStamp nat), tle (T:=itime) (a, p) (b, p') = (a <=? b) && tle p p').
  { intros a b p p'. change (tle (T:=itime) (a, p) (b, p')) with (tle a b && tle p p'). f_equal. apply eq_true_iff_eq. rewrite Nat.leb_le. apply nat_tle. }
  destruct (m <=? n) eqn:Em.
  - rewrite (acc_cons' (D:=row) (T:=itime)), acc_nil. cbn [fst snd]. rewrite !E, Em. cbn [andb]. change (0 <=? o) with true. cbn [andb]. simpl. destruct (_ && _); simpl; lia.
  - rewrite E, Em. cbn [andb]. rewrite andb_false_r. reflexivity.
Qed.

(** ** Operators *)
Lemma op_outer level iter op x : fst (snd (fst x)) = 0 -> forall y, In y (quietly (op_results level iter op x)) -> fst (snd (fst y)) = 0.
Proof.
  destruct x as [[[k v] t] d]. cbn [fst snd]. intros H y. destruct op; simpl.
  - destruct (eval (p_key p) _); simpl; [|tauto]. destruct (eval (p_val p) _); simpl; [|tauto]. intros [<-|[]]; auto.
  - destruct (eval t0 _); simpl; [|tauto]. destruct (truthy _); simpl; [|tauto]. intros [<-|[]]; auto.
  - intros [<-|[]]; auto.
  - destruct (eval t0 _); simpl; [|tauto]. destruct (as_int _); simpl; [|tauto]. intros [<-|[]]; auto.
  - intros [<-|[]]; auto.
  - destruct (eval t0 _) as [[| | |xs]|]; simpl; try tauto. intros Hy. apply in_map_iff in Hy as (z & <- & _). auto.
Qed.
Lemma ops_outer level iter ops rs : (forall y, In y rs -> fst (snd (fst y)) = 0) -> forall y, In y (quiet_ops level iter ops rs) -> fst (snd (fst y)) = 0.
Proof.
  revert rs. induction ops as [|op ops IH]; simpl; auto. intros rs H. apply IH. intros y Hy. apply in_flat_map in Hy as (x & Hx & Hy).
  apply (op_outer level iter op x (H x Hx) y Hy).
Qed.
Lemma linear_cons ops level d t r c : linear_of ops level ((d, t, r) :: c) =
  map (fun x => (fst (fst x), join t (snd (fst x)), (r * snd x)%Z)) (quiet_ops level (iter_at_level level t) ops [(d, tmin, 1%Z)]) ++ linear_of ops level c.
Proof. reflexivity. Qed.
Lemma linear_app ops level c1 c2 : linear_of ops level (c1 ++ c2) = linear_of ops level c1 ++ linear_of ops level c2.
Proof. apply flat_map_app. Qed.
Lemma snap_linear ops level c : linear_of ops level (snap c) = snap (linear_of ops level c).
Proof.
  induction c as [|u c IH]; [reflexivity|]. destruct u as [[d [m q]] r]. rewrite snap_cons, linear_app, linear_cons, snap_app, IH. f_equal.
  set (rs := quiet_ops level (iter_at_level level (m, q)) ops [(d, tmin, 1%Z)]).
  assert (Z0 : forall y, In y rs -> fst (snd (fst y)) = 0). { apply ops_outer. intros y [<-|[]]. reflexivity. }
  assert (J : forall t : itime, fst t = 0 -> join ((m, q) : itime) t = (m, join q (snd t)) /\ join ((0, q) : itime) t = (0, join q (snd t))).
  { intros [a b] Ha. simpl in Ha. subst a. 
    change (join ((m, q) : itime) (0, b)) with (join m 0, join q b). change (join ((0, q) : itime) (0, b)) with (join 0 0, join q b). rewrite !nat_join_max, Nat.max_0_r. auto. }
  assert (F : snap (map (fun x => (fst (fst x), join ((m, q) : itime) (snd (fst x)), (r * snd x)%Z)) rs) =
     if m <=? n then map (fun x => (fst (fst x), join ((0, q) : itime) (snd (fst x)), (r * snd x)%Z)) rs else []).
  { clearbody rs. clear IH. induction rs as [|y rs IH]; [destruct (m <=? n); auto|]. cbn [map].
    destruct (J (snd (fst y)) (Z0 y (or_introl eq_refl))) as (-> & ->). rewrite snap_cons, IH by (intros; apply Z0; right; auto). destruct (m <=? n); auto. }
  rewrite F. destruct (m <=? n); auto. rewrite linear_cons. cbn [linear_of flat_map]. rewrite app_nil_r. reflexivity.
Qed.
Lemma flat_map_none {A B} (f : A -> list B) l : (forall x, In x l -> f x = []) -> flat_map f l = [].
Proof. induction l as [|x l IH]; simpl; auto. intros H. rewrite H, IH; auto. Qed.
Lemma snap_joined p c1 c2 : joined_of p (snap c1) (snap c2) = snap (joined_of p c1 c2).
Proof.
  unfold joined_of. set (f := fun (k v1 v2 : Value) => quietly (join_row p k v1 v2)).
  induction c1 as [|u c1 IH]; [reflexivity|]. destruct u as [[[k v] [m q]] r]. rewrite snap_cons. unfold join_updates in *.
  etransitivity; [apply flat_map_app|]. etransitivity; [|symmetry; apply snap_app]. f_equal; [|exact IH]. clear IH c1.
  assert (G : (if m <=? n then flat_map (join_pair (T:=itime) (R3:=Z) f (k, v, (0, q), r)) (snap c2) else []) = snap (flat_map (join_pair f (k, v, (m, q), r)) c2)).
  { induction c2 as [|w c2 IH]; [destruct (m <=? n); reflexivity|]. destruct w as [[[k2 v2] [m2 q2]] r2]. rewrite snap_cons. cbn [flat_map]. rewrite snap_app, <- IH, flat_map_app.
    assert (One : snap (join_pair (T:=itime) (R3:=Z) f (k, v, (m, q), r) (k2, v2, (m2, q2), r2)) =
      if (m <=? n) && (m2 <=? n) then join_pair f (k, v, (0, q), r) (k2, v2, (0, q2), r2) else []).
    { unfold join_pair. destruct (eqb k k2); [|destruct (_ && _); reflexivity].
      change (join ((m, q) : itime) (m2, q2)) with (join m m2, join q q2). change (join ((0, q) : itime) (0, q2)) with (join 0 0, join q q2). rewrite !nat_join_max.
      assert (E : (Nat.max m m2 <=? n) = (m <=? n) && (m2 <=? n)).
      { destruct (Nat.leb_spec m n), (Nat.leb_spec m2 n), (Nat.leb_spec (Nat.max m m2) n); auto; lia. }
      induction (f k v v2) as [|d l IHl]; [destruct (_ && _); reflexivity|]. cbn [map]. rewrite snap_cons, IHl, E. destruct (_ && _); reflexivity. }
    match goal with |- _ = ?a ++ ?b => transitivity ((if (m <=? n) && (m2 <=? n) then join_pair (R3:=Z) f (k, v, ((0, q) : itime), r) (k2, v2, (0, q2), r2) else []) ++ b); [|f_equal; symmetry; exact One] end.
    clear One. destruct (m <=? n); auto. cbn [andb]. destruct (m2 <=? n); cbn [app flat_map]; auto. rewrite app_nil_r. auto. }
  destruct (m <=? n); [|exact G]. cbn [flat_map]. rewrite app_nil_r. exact G.
Qed.
Lemma snap_reduced red c out : reduced_to red c out -> reduced_to red (snap c) (snap out).
Proof.
  intros H k [o q]. destruct (H k (n, q)) as (vals & C & W & O). exists vals. split; auto. split; intros v.
  - rewrite snap_acc. apply W.
  - rewrite snap_acc. apply O.
Qed.
Lemma snap_node depth look look' nd out : (forall r c, look r = Some c -> look' r = Some (snap c)) -> node_means depth look nd out -> node_means depth look' nd (snap out).
Proof.
  intros HL. destruct nd as [r ops|rs|r|l r p|r red|r lab]; simpl.
  - intros (c & E & H). exists (snap c). split; auto. rewrite snap_linear. apply snap_same; auto.
  - intros (cs & E & Hn & H). exists (map snap cs). split; [|split].
    + clear -E HL. revert cs E. induction rs as [|r rs IH]; intros cs E; [injection E as <-; auto|]. apply mapO_cons_inv in E as (c & cs' & -> & Er & E). cbn [mapO].
      rewrite (HL _ _ Er), (IH _ E). auto.
    + destruct cs; [congruence|discriminate].
    + rewrite <- snap_concat. apply snap_same; auto.
  - intros (c & E & H). exists (snap c). split; auto. apply snap_same; auto.
  - intros (c1 & c2 & E1 & E2 & H). exists (snap c1), (snap c2). repeat (split; auto). rewrite snap_joined. apply snap_same; auto.
  - intros (c & E & H). exists (snap c). split; auto. apply snap_reduced; auto.
  - intros (c & E & H). exists (snap c). split; auto. apply snap_same; auto.
Qed.

(** ** Moves of times *)
Lemma snap_times (f : itime -> option itime) (g : PointStamp nat -> option (PointStamp nat)) c l :
  (forall t, f t = (q <- g (snd t); Some (fst t, q))) -> at_times f c = Some l -> at_times f (snap c) = Some (snap l).
Proof.
  intros Hf. unfold at_times. revert l. induction c as [|u c IH]; intros l E; [injection E as <-; reflexivity|].
  apply mapO_cons_inv in E as (y & r & -> & Ey & E). specialize (IH _ E). destruct u as [[d [m q]] w]. cbn [fst snd] in Ey.
  rewrite Hf in Ey. cbn [fst snd] in Ey. destruct (g q) as [q'|] eqn:Eq; [|discriminate]. injection Ey as <-.
  cbn [fst snd]. rewrite !snap_cons. destruct (m <=? n); cbn [app]; auto. cbn [mapO]. cbn [fst snd]. rewrite Hf. cbn [fst snd]. rewrite Eq, IH. reflexivity.
Qed.
Lemma snap_feedback depth c l : at_times (feedback_time depth) c = Some l -> at_times (feedback_time depth) (snap c) = Some (snap l).
Proof.
  apply (snap_times _ (fun q => s <- feedback_summary 0 depth 1; v <- pss_results_in (fun a b => Some (a + b)) s (ps_vec q); Some (mk_ps v))).
  intros t. unfold feedback_time. destruct (feedback_summary 0 depth 1); auto. destruct (pss_results_in _ _ _); auto.
Qed.
Lemma snap_left level c l : at_times (left_time level) c = Some l -> at_times (left_time level) (snap c) = Some (snap l).
Proof.
  apply (snap_times _ (fun q => match level with 0 => None | S l => Some (mk_ps (firstn l (ps_vec q))) end)).
  intros t. unfold left_time. destruct level; auto.
Qed.

(** ** Scopes *)
Definition snap_val (v : rvalue) : rvalue := match v with VOp c => VOp (snap c) | VSub es => VSub (map snap es) end.
Lemma snap_resolve vals ims vars r c : resolve vals ims vars r = Some c -> resolve (map snap_val vals) (map snap ims) (map snap vars) r = Some (snap c).
Proof.
  destruct r as [i|i|i|i j]; simpl; intros H.
  - rewrite nth_error_map. destruct (nth_error vals i) as [[x|x]|]; simpl; try discriminate. injection H as <-; auto.
  - erewrite map_nth_error; eauto.
  - erewrite map_nth_error; eauto.
  - rewrite nth_error_map. destruct (nth_error vals i) as [[x|x]|]; simpl; try discriminate. erewrite map_nth_error; eauto.
Qed.
Lemma snap_mapO {A} (look look' : A -> option coll) l cs : (forall x c, look x = Some c -> look' x = Some (snap c)) -> mapO look l = Some cs -> mapO look' l = Some (map snap cs).
Proof.
  intros H. revert cs. induction l as [|x l IH]; intros cs E; [injection E as <-; reflexivity|]. apply mapO_cons_inv in E as (y & r & -> & Ey & E).
  cbn [mapO map]. rewrite (H _ _ Ey), (IH _ E). auto.
Qed.
Lemma snap_forall2 e o : Forall2 same_coll e o -> Forall2 same_coll (map snap e) (map snap o).
Proof. induction 1; simpl; constructor; auto. apply snap_same; auto. Qed.

Theorem scope_as_of s : forall depth ims ex, scope_means depth s ims ex -> scope_means depth s (map snap ims) (map snap ex).
Proof.
  induction s as [s IHs] using scope_ind'. intros depth ims ex M. apply scope_means_iff in M as (vars & vals & L & (N & I) & B & V & Dp & o & O & X).
  apply scope_means_iff. exists (map snap vars), (map snap_val vals). rewrite !map_length. repeat (split; [assumption|]).
  split; [split; [assumption|]|split; [assumption|split; [|split; [assumption|]]]].
  - intros i it E. specialize (I i it E).
    assert (HL : forall r c, resolve (firstn i vals) ims vars r = Some c -> resolve (firstn i (map snap_val vals)) (map snap ims) (map snap vars) r = Some (snap c)).
    { intros r c. rewrite firstn_map. apply snap_resolve. }
    destruct it as [nd|c]; simpl in *.
    + destruct I as (w & Ew & H). exists (snap w). split; [rewrite nth_error_map, Ew; auto|]. eapply snap_node; eauto.
    + destruct I as (i' & e & os & Ew & Im & M & F). exists (map snap i'), (map snap e), (map snap os). split; [rewrite nth_error_map, Ew; auto|].
      split; [|split].
      * unfold imported in *. eapply snap_mapO; [|exact Im]. cbv beta. intros im w. destruct (im_from im); intros Q; try discriminate Q. apply HL; auto.
      * apply IHs; auto. apply nth_error_In in E; auto.
      * clear -F. induction F as [|a b e os (l & El & Hl) F IH]; simpl; constructor; auto. exists (snap l). split; [apply snap_left; auto|apply snap_same; auto].
  - intros v c E. destruct (nth_error vars v) as [c0|] eqn:E0; [|apply nth_error_None in E0; rewrite <- (map_length snap) in E0; apply nth_error_None in E0; pose proof (eq_trans (eq_sym E) E0) as Q; discriminate Q].
    pose proof (eq_trans (eq_sym E) (map_nth_error snap _ _ E0)) as Q. injection Q as ->. specialize (V v c0 E0).
    unfold bind_means in *. destruct (find _ _) as [b|].
    + destruct V as (src & l & Es & El & Hl). exists (snap src), (snap l). split; [apply snap_resolve; auto|]. split; [apply snap_feedback; auto|apply snap_same; auto].
    + apply (snap_same _ [] V).
  - exists (map snap o). split; [|apply snap_forall2; auto]. eapply snap_mapO; [|exact O]. intros e w. apply snap_resolve.
Qed.
End Snap.

Theorem program_as_of n s inputs traces ex : program_means s inputs traces ex ->
  program_means s (fun i => option_map (as_of n) (inputs i)) (fun t => option_map (as_of n) (traces t)) (map (as_of n) ex).
Proof.
  intros (ims & E & M). exists (map (as_of n) ims). split; [|apply scope_as_of; auto]. unfold root_imports in *. eapply snap_mapO; [|exact E].
  cbv beta. intros im c. destruct (im_from im); intros Q; try discriminate Q; rewrite Q; auto.
Qed.

(** Inputs that agree up to a moment give results that agree up to it. *)
Theorem program_until n s inputs1 traces1 ex1 inputs2 traces2 ex2 :
  (forall i c1 c2, inputs1 i = Some c1 -> inputs2 i = Some c2 -> agree (fun t => fst t <= n) c1 c2) ->
  (forall i c1 c2, traces1 i = Some c1 -> traces2 i = Some c2 -> agree (fun t => fst t <= n) c1 c2) ->
  program_means s inputs1 traces1 ex1 -> program_means s inputs2 traces2 ex2 -> Forall2 (agree (fun t => fst t <= n)) ex1 ex2.
Proof.
  intros Hi Ht (i1 & E1 & M1) (i2 & E2 & M2). apply (scope_unique s 0 _ i1 i2); auto.
  - intros t t' Hl Ht'. apply itime_tle in Hl as (Hl & _). lia.
  - intros t t' H1 H2 _. lia.
  - unfold root_imports in *. eapply mapO_agree; [|exact E1|exact E2]. cbv beta. intros im a b _. destruct (im_from im); intros Q1 Q2; try discriminate Q1; eauto.
Qed.
