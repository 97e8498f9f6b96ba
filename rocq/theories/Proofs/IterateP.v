(** Loops. *)
From Verif Require Import Base.Collections Spec.IterateSpec Proofs.LatticeP Proofs.LinearP.

Lemma inner_tle {T} {TT : Time T} (t t' : T) (i i' : nat) : tle (t, i) (t', i') = tle t t' && (i <=? i').
Proof.
  change (tle t t' && leb i i' = tle t t' && (i <=? i')). f_equal. unfold leb. cbn. destruct (Nat.compare_spec i i'), (Nat.leb_spec i i'); auto; lia.
Qed.

Ltac flds := cbn [lp_source lp_collection lp_result lp_to_collection lp_to_feedback].
Lemma some_inj {A} (x y : A) : Some x = Some y -> x = y.
Proof. congruence. Qed.
Section Loop.
Context {D T R : Type} {OD : Ord D} {TT : Time T} {DR : Diff R} {AR : Abelian R}.
Local Notation inner := (T * nat)%type.
Local Notation message := (inner * list (D * inner * R))%type.
Variable max step : nat.
Variable from : bool.
Implicit Types (s : Loop D T R) (m : message) (e : loop_event D T R).

Definition forwardable (m : message) : Prop :=
  Forall (fun u => tle (fst (fst m)) (fst (snd (fst u))) = true /\ snd (fst m) + step <= snd (snd (fst u)) <= max) (snd m).
Definition whole (ss : list message) d t : R := acc (updates ss) d t.
Lemma whole_app a b d t : whole (a ++ b) d t = dplus (whole a d t) (whole b d t).
Proof. unfold whole, updates. rewrite flat_map_app. apply acc_app. Qed.
Lemma whole_nil d t : whole [] d t = dzero.
Proof. apply acc_nil. Qed.

Record linv s : Prop := {
  li_sum : forall d t, dplus (whole (lp_collection s) d t) (dplus (whole (lp_to_collection s) d t) (whole (lp_to_feedback s) d t)) =
    dplus (whole (c_results_in (next_round max step) (lp_result s)) d t)
      (if from then dplus (whole (lp_source s) d t) (whole (c_results_in (next_round max step) (c_negate (lp_source s))) d t) else dzero);
  li_source : Forall (sendable max) (lp_source s);
  li_result : Forall (sendable max) (lp_result s);
  li_to_collection : Forall (sendable max) (lp_to_collection s);
  li_to_feedback : Forall forwardable (lp_to_feedback s)
}.

Lemma forwarded m : sendable max m -> Forall forwardable (c_results_in (next_round max step) [m]).
Proof.
  intros H. constructor; [|constructor]. unfold forwardable, sendable in *. cbn [fst snd]. rewrite Forall_forall in *. intros u Hu.
  apply in_flat_map in Hu as (x & Hx & Hu). unfold next_round in Hu. destruct (_ <=? _) eqn:E; [|destruct Hu]. destruct Hu as [<-|[]].
  apply Nat.leb_le in E. destruct (H x Hx) as [H1 H2]. destruct m as [[t i] us], x as [[d [t' i']] r]. cbn [fst snd] in *. rewrite inner_tle in H1.
  apply andb_true_iff in H1 as [H1 H3]. apply Nat.leb_le in H3. split; [auto|lia].
Qed.
Lemma sendable_negate m : sendable max m -> exists m', c_negate [m] = [m'] /\ sendable max m'.
Proof.
  intros H. eexists. split; [reflexivity|]. unfold sendable in *. cbn [fst snd]. rewrite Forall_map. eapply Forall_impl; [|exact H]. intros u Hu. exact Hu.
Qed.
Lemma results_in_app (a b : list message) : c_results_in (next_round max step) (a ++ b) = c_results_in (next_round max step) a ++ c_results_in (next_round max step) b.
Proof. apply map_app. Qed.
Lemma negate_app (a b : list message) : c_negate (a ++ b) = c_negate a ++ c_negate b.
Proof. apply map_app. Qed.
Lemma take_nth_ok n (l rest : list message) m : take_nth n l = Some (m, rest) -> exists a b, l = a ++ m :: b /\ rest = a ++ b.
Proof.
  unfold take_nth, get. destruct (nth_error l n) as [x|] eqn:E; [|discriminate]. intros H. injection H as -> <-.
  exists (firstn n l), (skipn (S n) l). split; auto. clear - E. revert l E. induction n as [|n IH]; intros [|y l] E; cbn in *; try discriminate; [congruence|]. f_equal. apply IH. auto.
Qed.

Lemma loop_step_ok s e s' : linv s -> sent_by max e -> loop_step max step from s e = Some s' -> linv s'.
Proof.
  intros [HS HA HB HC HF] He Es. destruct e as [m|m|n|n]; cbn [loop_step] in Es.
  - apply some_inj in Es; subst s'. destruct (sendable_negate m He) as (m' & En & Hm').
    constructor; flds; try (apply Forall_app; split; auto; fail); try assumption.
    + intros d t. rewrite negate_app, results_in_app, !whole_app. specialize (HS d t). destruct from; [|exact HS]. rewrite !whole_app.
      rewrite En in *.
      set (A := whole (lp_collection s) d t) in *. set (B := whole (lp_to_collection s) d t) in *. set (C := whole (lp_to_feedback s) d t) in *.
      set (P := whole (c_results_in _ (lp_result s)) d t) in *. set (Q := whole (lp_source s) d t) in *. set (S' := whole (c_results_in _ (c_negate (lp_source s))) d t) in *.
      set (x := whole [m] d t). set (y := whole (c_results_in _ [m']) d t). clearbody A B C P Q S' x y.
      transitivity (dplus (dplus A (dplus B C)) (dplus x y)).
      * rewrite (dplus_swap4 B x C y). rewrite <- dplus_assoc. auto.
      * rewrite HS. rewrite (dplus_swap4 Q x S' y). rewrite dplus_assoc. auto.
    + destruct from; auto. apply Forall_app. split; auto.
    + destruct from; auto. apply Forall_app. split; auto. rewrite En. apply forwarded. auto.
  - apply some_inj in Es; subst s'. constructor; flds; try (apply Forall_app; split; auto; fail); auto.
    + intros d t. rewrite results_in_app, !whole_app. specialize (HS d t).
      set (x := whole _ d t) at 4. rewrite <- !dplus_assoc. rewrite (dplus_assoc (whole (lp_collection s) d t)). rewrite HS.
      rewrite !dplus_assoc. f_equal. apply dplus_comm.
    + apply Forall_app. split; auto. apply forwarded. auto.
  - destruct (take_nth n _) as [[m rest]|] eqn:E; [|discriminate]. apply some_inj in Es; subst s'. apply take_nth_ok in E as (a & b & Ea & ->). cbn in He.
    rewrite Ea in HC. constructor; flds; auto.
    + intros d t. rewrite <- HS, Ea. change (m :: b) with ([m] ++ b). rewrite !whole_app, !dplus_assoc. f_equal.
      rewrite !(dplus_left_comm (whole [m] d t)). auto.
    + apply Forall_app in HC as [H1 H2]. inversion H2; subst. apply Forall_app. auto.
  - destruct (take_nth n _) as [[m rest]|] eqn:E; [|discriminate]. apply some_inj in Es; subst s'. apply take_nth_ok in E as (a & b & Ea & ->).
    rewrite Ea in HF. apply Forall_app in HF as [H1 H2]. inversion H2 as [|? ? Hm H3]; subst. constructor; flds; auto; [|apply Forall_app; auto].
    intros d t. rewrite <- HS, Ea.
    assert (Em : whole match next_round max step (fst m) with Some t0 => [(t0, snd m)] | None => [] end d t = whole [m] d t).
    { unfold next_round. destruct (_ <=? _) eqn:E; [auto|]. destruct m as [[tm im] us]. unfold forwardable in Hm. cbn [fst snd] in *.
      destruct us as [|u us]; [auto|]. inversion Hm as [|? ? [_ Hu] _]; subst. apply Nat.leb_gt in E. lia. }
    change (m :: b) with ([m] ++ b). rewrite !whole_app, Em, !dplus_assoc. f_equal.
    rewrite (dplus_left_comm (whole [m] d t)). f_equal. apply dplus_left_comm.
Qed.
Lemma loop_run_ok l : forall s s', linv s -> Forall (sent_by max) l -> loop_run max step from s l = Some s' -> linv s'.
Proof.
  induction l as [|e l IH]; intros s s' HI Hl Es; cbn in Es; [congruence|]. destruct (loop_step _ _ _ s e) as [s1|] eqn:E; [|discriminate].
  inversion Hl; subst. eapply IH; [|eauto|exact Es]. eapply loop_step_ok; eauto.
Qed.
Lemma loop_new_ok : linv loop_new.
Proof.
  constructor; try constructor. intros d t. unfold loop_new. flds. rewrite !whole_nil. destruct from; rewrite !dplus_0_l; auto.
Qed.

(** Messages not before [t] do not matter at [t]. *)
Lemma whole_late (ss : list message) d t : (forall m, In m ss -> Forall (fun u => tle (snd (fst u)) t = false) (snd m)) -> whole ss d t = dzero.
Proof.
  unfold whole, updates. induction ss as [|m ss IH]; intros H; [apply acc_nil|]. cbn [flat_map]. rewrite acc_app, IH by (intros; apply H; right; auto).
  rewrite dplus_0_r. specialize (H m (or_introl eq_refl)). induction (snd m) as [|u us IHu]; [apply acc_nil|]. inversion H as [|? ? Hu H']; subst.
  rewrite acc_cons', Hu, andb_false_r, IHu, dplus_0_l; auto.
Qed.
(** What feeds back to [(t, i)] is what was at the step before. *)
Lemma whole_fed_back (ss : list message) d t i : i <= max ->
  whole (c_results_in (next_round max step) ss) d (t, i) = if step <=? i then whole ss d (t, i - step) else dzero.
Proof.
  intros Hi. unfold whole, c_results_in. rewrite each_flat.
  assert (G : forall u : inner, match next_round max step u with Some x => tle x (t, i) | None => false end =
                       match (if step <=? i then Some (t, i - step) else None) with Some p => tle u p | None => false end).
  { intros [t' i']. unfold next_round. cbn [fst snd]. destruct (Nat.leb_spec (i' + step) max), (Nat.leb_spec step i); rewrite ?inner_tle; auto.
    - f_equal. destruct (Nat.leb_spec (i' + step) i), (Nat.leb_spec i' (i - step)); auto; lia.
    - rewrite (proj2 (Nat.leb_gt _ _)) by lia. apply andb_false_r.
    - rewrite (proj2 (Nat.leb_gt _ _)) by lia. rewrite andb_false_r. auto. }
  rewrite (retime (fun _ x => next_round max step x) (updates ss) d (t, i) (if step <=? i then Some (t, i - step) else None) (fun u _ _ => G _)).
  destruct (step <=? i); auto.
Qed.
Lemma whole_negate (ss : list message) d t : whole (c_negate ss) d t = dneg (whole ss d t).
Proof.
  unfold whole, c_negate. rewrite (updates_each (map (fun u : D * inner * R => (fst u, dneg (snd u))))) by (auto; apply map_app).
  induction (updates ss) as [|[[d' t'] r] c IH]; cbn [map]; [rewrite !acc_nil, dneg_zero; auto|].
  rewrite !acc_cons', IH, dneg_plus. cbn [fst snd]. destruct (_ && _); rewrite ?dneg_zero; auto.
Qed.

(** The equation of a settled loop. *)
Lemma settled_equation f s t i : linv s -> i <= max -> settled max step f s (t, i) -> forall d,
  at_time (lp_collection s) (t, i) d =
    if step <=? i then
      dplus (f t (at_time (lp_collection s) (t, i - step)) d)
        (if from then dplus (at_time (lp_source s) (t, i) d) (dneg (at_time (lp_source s) (t, i - step) d)) else dzero)
    else if from then at_time (lp_source s) (t, i) d else dzero.
Proof.
  intros HI Hi [S1 S2 S3] d. pose proof (li_sum s HI d (t, i)) as HS.
  assert (E1 : whole (lp_to_collection s) d (t, i) = dzero).
  { apply whole_late. intros m Hm. pose proof (li_to_collection s HI) as HC. rewrite Forall_forall in S1, HC. specialize (S1 m Hm). specialize (HC m Hm).
    unfold sendable in HC. eapply Forall_impl; [|exact HC]. intros u [Hu _]. destruct (tle (snd (fst u)) (t, i)) eqn:E; auto.
    rewrite <- S1. symmetry. eapply tle_trans; eauto. }
  assert (E2 : whole (lp_to_feedback s) d (t, i) = dzero).
  { apply whole_late. intros m Hm. pose proof (li_to_feedback s HI) as HF. rewrite Forall_forall in S2, HF. specialize (S2 m Hm). specialize (HF m Hm).
    unfold forwardable in HF. eapply Forall_impl; [|exact HF]. intros u [Hu Hv]. unfold next_round in S2. rewrite (proj2 (Nat.leb_le _ _)) in S2 by lia.
    destruct (tle (snd (fst u)) (t, i)) eqn:E; auto. rewrite <- S2. symmetry. destruct (snd (fst u)) as [tu iu]. cbn [fst snd] in *. rewrite inner_tle in *.
    apply andb_true_iff in E as [E3 E4]. apply Nat.leb_le in E4. rewrite (tle_trans _ _ _ Hu E3). apply Nat.leb_le. lia. }
  rewrite E1, E2, !dplus_0_r in HS. change (at_time (lp_collection s) (t, i) d) with (whole (lp_collection s) d (t, i)). rewrite HS.
  rewrite !whole_fed_back by auto. destruct (Nat.leb_spec step i) as [H|H].
  - f_equal.
    + apply (S3 (t, i - step) (t, i)); [unfold next_round; cbn; rewrite (proj2 (Nat.leb_le _ _)) by lia; f_equal; f_equal; lia|apply tle_refl].
    + rewrite whole_negate. auto.
  - rewrite dplus_0_l, dplus_0_r. auto.
Qed.
Lemma settled_earlier f s t t' : settled max step f s t -> tle t' t = true -> settled max step f s t'.
Proof.
  intros [S1 S2 S3] H. constructor.
  - eapply Forall_impl; [|exact S1]. intros m Hm. destruct (tle (fst m) t') eqn:E; auto. rewrite <- Hm. symmetry. eapply tle_trans; eauto.
  - eapply Forall_impl; [|exact S2]. intros m Hm. cbn beta in *. destruct (next_round _ _ _) as [u|]; auto. destruct (tle u t') eqn:E; auto. rewrite <- Hm. symmetry. eapply tle_trans; eauto.
  - intros u u' E Hu. eapply S3; eauto. eapply tle_trans; eauto.
Qed.
End Loop.

Section Settles.
Context {D T R : Type} {OD : Ord D} {TT : Time T} {DR : Diff R} {AR : Abelian R}.
Variable max step : nat.
Hypothesis Hstep : 0 < step.
Variable f : T -> (D -> R) -> D -> R.
Hypothesis Hf : forall t, extensional (f t).
Implicit Types (s : Loop D T R).

Lemma repeated_S t n (c : D -> R) d : repeated (f t) (S n) c d = f t (repeated (f t) n c) d.
Proof. auto. Qed.
Lemma collection_iterates from s t (c : D -> R) : linv max step from s ->
  (forall i d, c d = if from then at_time (lp_source s) (t, i) d else dzero) ->
  forall i, i <= max -> settled max step f s (t, i) -> forall d, at_time (lp_collection s) (t, i) d = repeated (f t) (i / step) c d.
Proof.
  intros HI Hc i. induction i as [i IH] using (well_founded_induction lt_wf). intros Hi HS d.
  rewrite (settled_equation max step from f s t i HI Hi HS d). destruct (Nat.leb_spec step i) as [H|H].
  - replace (if from then _ else dzero) with (dzero : R).
    + rewrite dplus_0_r. assert (Ei : i / step = S ((i - step) / step)).
      { replace i with ((i - step) + 1 * step) at 1 by lia. rewrite Nat.div_add by lia. lia. }
      rewrite Ei. cbn [repeated]. apply Hf. intros d'. apply IH; [lia|lia|]. eapply settled_earlier; [exact HS|]. rewrite inner_tle, tle_refl. apply Nat.leb_le. lia.
    + destruct from; auto. rewrite <- (Hc i d), <- (Hc (i - step) d), dneg_r. auto.
  - rewrite Nat.div_small by auto. cbn [repeated]. rewrite (Hc i d). auto.
Qed.
End Settles.
