(** C35, C36: PointStamps and their path summaries; C01 for PointStamp and AltNeu. *)
From Verif Require Import Model.PointStampM Model.AltNeuM Spec.PointStampSpec Spec.LatticeLaws Model.LatticeM Proofs.LatticeP Proofs.PointStampP Proofs.SummaryP.
From Verif Require Import Base.Order Base.Arrays.

(** ** C35
    Vectors are read with [coord v i]: the coordinate, or the minimum beyond the end. *)
Theorem c35_new_reads_the_same : forall (T : Type) (TT : Time T) (v : list T),
  minimal (ps_new v) /\ forall i, coord (ps_new v) i = coord v i.
Proof. intros T TT v. exact (conj (ps_new_minimal v) (ps_new_coord v)). Qed.
Print Assumptions c35_new_reads_the_same.

Theorem c35_equality : forall (T : Type) (TT : Time T) (a b : PointStamp T),
  a = b <-> forall i, coord (ps_vec a) i = coord (ps_vec b) i.
Proof.
  intros T TT a b. split; [intros ->; auto|]. intros H. apply ps_vec_inj, ps_ext; auto using ps_min.
Qed.
Print Assumptions c35_equality.

Theorem c35_order_join_meet : forall (T : Type) (TT : Time T) (a b : PointStamp T),
  (tle a b = true <-> forall i, tle (coord (ps_vec a) i) (coord (ps_vec b) i) = true) /\
  (forall i, coord (ps_vec (join a b)) i = join (coord (ps_vec a) i) (coord (ps_vec b) i)) /\
  (forall i, coord (ps_vec (meet a b)) i = meet (coord (ps_vec a) i) (coord (ps_vec b) i)).
Proof.
  intros T TT a b. exact (conj (ps_le_spec _ _) (conj (ps_join_coord _ _) (ps_meet_coord _ _))).
Qed.
Print Assumptions c35_order_join_meet.

Theorem c35_in_place_variants : forall (T : Type) (TT : Time T) (a b : PointStamp T),
  ps_join_assign (ps_vec a) (ps_vec b) = ps_vec (join a b) /\ ps_meet_assign (ps_vec a) (ps_vec b) = ps_vec (meet a b).
Proof.
  intros T TT a b. exact (conj (ps_join_assign_join _ _ (ps_min a) (ps_min b)) (ps_meet_assign_meet _ _)).
Qed.
Print Assumptions c35_in_place_variants.

(** The minimum is least, and the derived total order extends the partial order. *)
Theorem c35_minimum_and_total_order : forall (T : Type) (TT : Time T) (a b : PointStamp T),
  tle tmin a = true /\ ps_vec (tmin : PointStamp T) = [] /\ (tle a b = true -> cmp (ps_vec a) (ps_vec b) <> Gt).
Proof.
  intros T TT a b. exact (conj (tmin_le a) (conj eq_refl (ps_le_cmp _ _ (ps_min a) (ps_min b)))).
Qed.
Print Assumptions c35_minimum_and_total_order.

(** Comparisons with slices, in both directions, are those of the coordinate-wise reading. *)
Theorem c35_slice_order : forall (T : Type) (TT : Time T) (a : PointStamp T) (s : list T),
  (ps_le_slice (ps_vec a) s = true <-> forall i, tle (coord (ps_vec a) i) (coord s i) = true) /\
  (slice_le_ps s (ps_vec a) = true <-> forall i, tle (coord s i) (coord (ps_vec a) i) = true).
Proof. intros T TT a s. exact (conj (ps_le_spec _ _) (ps_le_spec _ _)). Qed.
Print Assumptions c35_slice_order.

(** Equality with slices is not: it only looks at the coordinates of the left operand. *)
Theorem c35_slice_equality_refuted :
  exists (a : PointStamp nat) (s : list nat), ps_eq_slice (ps_vec a) s = true /\ slice_eq_ps s (ps_vec a) = false /\
    ~ (forall i, coord (ps_vec a) i = coord s i).
Proof.
  exists (mk_ps [3]), [3; 4]. split; [reflexivity|]. split; [reflexivity|]. intros H. specialize (H 1). discriminate.
Qed.
Print Assumptions c35_slice_equality_refuted.

(** It is right when the right operand is not longer than the left one. *)
Theorem c35_slice_equality_partial : forall (T : Type) (TT : Time T) (a : PointStamp T) (s : list T),
  (length s <= length (ps_vec a) -> (ps_eq_slice (ps_vec a) s = true <-> forall i, coord (ps_vec a) i = coord s i)) /\
  (length (ps_vec a) <= length s -> (slice_eq_ps s (ps_vec a) = true <-> forall i, coord s i = coord (ps_vec a) i)).
Proof.
  intros T TT a s.
  assert (H : forall x y : list T, length y <= length x -> (all_padded eqb x y = true <-> forall i, coord x i = coord y i)).
  { intros x y Hl. rewrite all_padded_spec. split; intros H i.
    - destruct (Nat.lt_ge_cases i (length x)); [apply eqb_eq, H; auto|]. rewrite !coord_beyond by lia. auto.
    - intros _. apply eqb_eq, H. }
  split; intros Hl; apply H; auto.
Qed.
Print Assumptions c35_slice_equality_partial.

Example c35_ex :
  ps_vec (mk_ps [1; 0; 2; 0; 0]) = [1; 0; 2] /\ ps_vec (join (mk_ps [1; 0; 2]) (mk_ps [0; 5])) = [1; 5; 2] /\
  ps_vec (meet (mk_ps [1; 0; 2]) (mk_ps [0; 5; 1; 7])) = [0; 0; 1] /\ ps_vec (meet (mk_ps [1; 0; 2]) (mk_ps [1; 5])) = [1] /\
  tle (mk_ps [1; 0; 2]) (mk_ps [1; 5]) = false /\ tle (mk_ps [1]) (mk_ps [1; 5]) = true.
Proof. vm_compute. auto 10. Qed.

(** ** C01 for PointStamp and AltNeu *)
Theorem c01_pointstamp_lattice : forall (T : Type) (TT : Time T),
  is_lattice (T:=PointStamp T) (fun a b => ps_le (ps_vec a) (ps_vec b)) join meet.
Proof.
  intros T TT. constructor.
  - exact tle_refl.
  - exact tle_trans.
  - exact tle_antisym.
  - intros x y. exact (conj (join_ub_l x y) (join_ub_r x y)).
  - exact join_lub.
  - intros x y. exact (conj (meet_lb_l x y) (meet_lb_r x y)).
  - exact meet_glb.
Qed.
Print Assumptions c01_pointstamp_lattice.

Theorem c01_altneu_lattice : forall (T : Type) (eq le : T -> T -> bool) (jn mt : T -> T -> T),
  (forall x y, eq x y = true <-> x = y) -> is_lattice le jn mt ->
  is_lattice (an_le eq le) (an_join eq jn) (an_meet eq mt).
Proof. exact @an_is_lattice. Qed.
Print Assumptions c01_altneu_lattice.

Example c01_altneu_ex :
  is_lattice (T:=(nat * nat) * bool) (an_le eqb (product_le int_le int_le)) (an_join eqb (product_op int_join int_join))
    (an_meet eqb (product_op int_meet int_meet)) /\
  an_join eqb (product_op int_join int_join) (neu (1, 2)) (alt (1, 2)) = neu (1, 2) /\
  an_join eqb (product_op int_join int_join) (neu (1, 2)) (neu (2, 1)) = alt (2, 2).
Proof.
  split; [|vm_compute; auto]. apply c01_altneu_lattice; [intros; apply eqb_eq|]. apply product_is_lattice; apply int_is_lattice.
Qed.

(** ** C36 *)
(** Applying a summary acts on each coordinate as [coord_action] says: coordinates not retained are reset to the
    minimum, then the coordinate's action, if any, is applied; the result is undefined exactly when some action is. *)
Theorem c36_results_in : forall (T S : Type) (TT : Time T) (ri : S -> T -> option T) (s : PointStampSummary S) v,
  (forall u, pss_results_in ri s v = Some u <-> minimal u /\ forall i, coord_action ri (retain s) (actions s) v i = Some (coord u i)) /\
  (pss_results_in ri s v = None <-> exists i, coord_action ri (retain s) (actions s) v i = None).
Proof. intros T S TT ri s v. exact (conj (results_in_spec ri s v) (results_in_none ri s v)). Qed.
Print Assumptions c36_results_in.

Theorem c36_monotone_in_time : forall (T S : Type) (TT : Time T) ri fb sle sdef (laws : summary_laws (T:=T) (S:=S) ri fb sle sdef)
  (s : PointStampSummary S) v v' u', ps_le v v' = true -> pss_results_in ri s v' = Some u' ->
  exists u, pss_results_in ri s v = Some u /\ ps_le u u' = true.
Proof. intros T S TT ri fb sle sdef laws. exact (results_in_mono ri fb sle sdef laws). Qed.
Print Assumptions c36_monotone_in_time.

Theorem c36_monotone_in_summary : forall (T S : Type) (TT : Time T) ri fb sle sdef (laws : summary_laws (T:=T) (S:=S) ri fb sle sdef)
  (s s' : PointStampSummary S) v u', pss_le sle s s' = true -> pss_results_in ri s' v = Some u' ->
  exists u, pss_results_in ri s v = Some u /\ ps_le u u' = true.
Proof. intros T S TT ri fb sle sdef laws. exact (results_in_le ri fb sle sdef laws). Qed.
Print Assumptions c36_monotone_in_summary.

(** Composition: when both steps are defined so is the composition, and it agrees. *)
Theorem c36_composition_of_defined_partial : forall (T S : Type) (TT : Time T) ri fb sle sdef (laws : summary_laws (T:=T) (S:=S) ri fb sle sdef)
  (s o : PointStampSummary S) v u w, pss_results_in ri s v = Some u -> pss_results_in ri o u = Some w ->
  exists c, pss_followed_by fb s o = Some c /\ pss_results_in ri c v = Some w.
Proof. intros T S TT ri fb sle sdef laws. exact (compose_some ri fb sle sdef laws). Qed.
Print Assumptions c36_composition_of_defined_partial.

(** If coordinates' summaries never overflow, composition is exact. *)
Theorem c36_composition_without_overflow : forall (T S : Type) (TT : Time T) ri fb sle sdef (laws : summary_laws (T:=T) (S:=S) ri fb sle sdef)
  (s o c : PointStampSummary S) v, (forall a t, ri a t <> None) -> pss_followed_by fb s o = Some c ->
  pss_results_in ri c v = match pss_results_in ri s v with Some u => pss_results_in ri o u | None => None end.
Proof. intros T S TT ri fb sle sdef laws. exact (compose_total ri fb sle sdef laws). Qed.
Print Assumptions c36_composition_without_overflow.

(** In general it is not: an overflow in a coordinate that the second summary drops is forgotten.  The
    summaries are those of unsigned integers, here of two bits: checked addition. *)
Definition u2_add (a b : nat) : option nat := if (a =? 0) || (a + b <=? 3) then Some (a + b) else None.
Lemma u2_laws : summary_laws (T:=nat) u2_add u2_add Nat.leb 0.
Proof.
  assert (HS : forall a b c, u2_add a b = Some c <-> c = a + b /\ (a = 0 \/ a + b <= 3)).
  { intros a b c. unfold u2_add. destruct (Nat.eqb_spec a 0); simpl; [split; [intros [= <-]; lia|intros (-> & _); f_equal; lia]|].
    destruct (Nat.leb_spec (a + b) 3); split; try discriminate; try lia; [intros [= <-]; lia|intros (-> & _); auto]. }
  assert (HN : forall a b, u2_add a b = None <-> a <> 0 /\ a + b > 3).
  { intros a b. unfold u2_add. destruct (Nat.eqb_spec a 0); simpl; [split; [discriminate|lia]|].
    destruct (Nat.leb_spec (a + b) 3); split; try discriminate; try lia; auto. }
  constructor.
  - intros s1 s2 t. destruct (u2_add s1 s2) as [s|] eqn:E1; destruct (u2_add s1 t) as [u|] eqn:E2; auto.
    + apply HS in E1 as (-> & E1), E2 as (-> & E2). destruct (u2_add s2 (s1 + t)) as [w|] eqn:E3.
      * apply HS in E3 as (-> & E3). apply HS. lia.
      * apply HN in E3. apply HN. lia.
    + apply HS in E1 as (-> & E1). apply HN in E2. apply HN. lia.
    + apply HN in E1. apply HS in E2 as (-> & E2). apply HN. lia.
  - intros s t t' u' Hl H. apply nat_tle in Hl. apply HS in H as (-> & H). exists (s + t). split; [apply HS; lia|apply nat_tle; lia].
  - intros s s' t u' Hl H. apply Nat.leb_le in Hl. apply HS in H as (-> & H). exists (s + t). split; [apply HS; lia|apply nat_tle; lia].
  - intros s t u H. apply HS in H as (-> & H). apply nat_tle. lia.
  - intros t. reflexivity.
Qed.
Theorem c36_composition_forgets_overflow_refuted :
  summary_laws (T:=nat) u2_add u2_add Nat.leb 0 /\
  exists (s o c : PointStampSummary nat) (v w : list nat),
    pss_results_in u2_add s v = None /\ pss_followed_by u2_add s o = Some c /\ pss_results_in u2_add c v = Some w.
Proof.
  split; [exact u2_laws|]. exists {| retain := None; actions := [1; 3] |}, {| retain := Some 1; actions := [] |}, {| retain := Some 1; actions := [1] |}, [1; 1], [2].
  vm_compute. auto.
Qed.
Print Assumptions c36_composition_forgets_overflow_refuted.

(** The feedback summary at [level] applies its argument to coordinate [level - 1] and nothing to the
    others; it is refused at level zero. *)
Theorem c36_feedback : forall (T Sm : Type) (TT : Time T) ri fb sle sdef (laws : summary_laws (T:=T) (S:=Sm) ri fb sle sdef) level sm s v u,
  feedback_summary sdef level sm = Some s -> pss_results_in ri s v = Some u ->
  forall i, (i + 1 = level -> ri sm (coord v i) = Some (coord u i)) /\ (i + 1 <> level -> coord u i = coord v i).
Proof.
  intros T Sm TT ri fb sle sdef laws level sm s v u Hf Hu i. apply results_in_spec in Hu as (_ & Hu). specialize (Hu i).
  rewrite (feedback_action ri fb sle sdef laws _ _ _ v i Hf) in Hu. destruct (Nat.eqb_spec (S i) level); split; intros; try lia; congruence.
Qed.
Print Assumptions c36_feedback.

(** [leave_dynamic] at [level]: the times it gives to updates and capabilities are those its declared summary
    promises, and they keep exactly the coordinates before [level - 1]. *)
Theorem c36_leave : forall (T Sm O : Type) (TT : Time T) (ri : Sm -> T -> option T) level (s : PointStampSummary Sm) (t t' : O * list T),
  leave_summary level = Some s -> leave_time level t = Some t' ->
  fst t' = fst t /\ pss_results_in ri s (snd t) = Some (snd t') /\
  forall i, coord (snd t') i = if i + 1 <? level then coord (snd t) i else tmin.
Proof.
  intros T Sm O TT ri level s t t' Hs Ht. rewrite (leave_results ri level s (snd t) Hs).
  destruct level as [|l]; [discriminate|]. injection Ht as <-. simpl. split; auto. rewrite Nat.sub_0_r. split; auto.
  intros i. rewrite ps_new_coord, coord_firstn. destruct (Nat.ltb_spec i l), (Nat.ltb_spec (i + 1) (S l)); auto; lia.
Qed.
Print Assumptions c36_leave.


Lemma plus_laws : summary_laws (T:=nat) (fun a b => Some (a + b)) (fun a b => Some (a + b)) Nat.leb 0.
Proof.
  constructor.
  - intros. f_equal. lia.
  - intros s t t' u' H [= <-]. apply nat_tle in H. eexists. split; eauto. apply nat_tle. lia.
  - intros s s' t u' H [= <-]. apply Nat.leb_le in H. eexists. split; eauto. apply nat_tle. lia.
  - intros s t u [= <-]. apply nat_tle. lia.
  - auto.
Qed.

Example c36_ex :
  (exists s, feedback_summary 0 2 1 = Some s /\ pss_results_in u2_add s [1; 0; 1] = Some [1; 1; 1]) /\
  (exists s, leave_summary 3 = Some s /\ pss_results_in u2_add s [1; 0; 1] = Some [1]) /\
  leave_time 3 (7, [1; 0; 1]) = Some (7, [1]).
Proof. repeat split; try (eexists; split; reflexivity). Qed.
Example c36_compose_ex : pss_followed_by u2_add {| retain := None; actions := [1; 2; 3] |} {| retain := Some 2; actions := [1; 0; 1] |} =
    Some {| retain := Some 2; actions := [2; 2; 1] |}.
Proof. reflexivity. Qed.
Example c36_compose_ex2 : pss_results_in u2_add {| retain := Some 2; actions := [2; 2; 1] |} [1; 1; 1] = Some [3; 3; 1].
Proof. reflexivity. Qed.
