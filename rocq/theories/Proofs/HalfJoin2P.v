(** The second form of the half join: at all times what it has sent, with the answers to the proposals it keeps back,
    are the answers to all proposals. *)
From Verif Require Export Spec.HalfJoin2Spec Proofs.HalfJoinP.
From Verif Require Proofs.CaptureP.

Section Blobs.
Context {B M C K V1 V2 D T R1 R2 R3 : Type} {OK : Ord K} {OV1 : Ord V1} {OV2 : Ord V2} {OD : Ord D} {TT : Time T}
  {D1 : Diff R1} {D2 : Diff R2} {D3 : Diff R3} {MU : Multiply R1 R2 R3}.
Variable ops : BatchOps B M T. Variable contents : B -> list (K * V2 * T * R2). Variable laws : BatchLaws (D:=K*V2) ops contents.
Variable cops : CursorOps B C K V2 T R2. Variable new : C.
Hypothesis HR : readable ops contents laws cops new.
Variable comparison : T -> T -> bool.
Hypothesis HO : follows_total_order comparison.
Variable output_func : K -> V1 -> V2 -> D.
Notation proposal := (K * V1 * T * T * R1)%type.
Notation entry := (T * (K * V1 * T) * R1)%type.
Notation update := (D * T * T * R3)%type.
Notation answers := (answers comparison output_func (MU:=MU)).
Notation same := (same_weights (A:=D*T*T) (R:=R3)).
Notation samep := (same_weights (A:=K*V1*T*T) (R:=R1)).
Notation sub A B := (forall t, beyond A t -> beyond B t).
Notation blob := (blob K V1 T R1).

(** ** Entries and proposals *)
Lemma proposal_entry (p : proposal) : proposal_of (entry_of p) = p.
Proof. destruct p as [[d i] r]. reflexivity. Qed.
Lemma entry_proposal (e : entry) : entry_of (proposal_of e) = e.
Proof. destruct e as [[i d] r]. reflexivity. Qed.
Lemma pinit_of (e : entry) : pinit (proposal_of e) = initial_of e.
Proof. destruct e as [[i d] r]. reflexivity. Qed.
Lemma map_proposal_entry (ps : list proposal) : map proposal_of (map entry_of ps) = ps.
Proof. rewrite map_map. erewrite map_ext; [apply map_id|]. intros p. apply proposal_entry. Qed.
Lemma weight_proposal_of (l : list entry) d i : weight (A:=K*V1*T*T) (map proposal_of l) (d, i) = weight (A:=T*(K*V1*T)) l (i, d).
Proof.
  induction l as [|[[i' d'] r] l IH]; auto. cbn [map proposal_of]. rewrite (weight_cons' (A:=K*V1*T*T)), (weight_cons' (A:=T*(K*V1*T))), IH. cbn [fst snd]. f_equal.
  destruct (eqb_spec (d', i') (d, i)) as [E|E], (eqb_spec (i', d') (i, d)) as [E'|E']; auto; congruence.
Qed.
Lemma same_proposals (a b : list entry) : same_weights (A:=T*(K*V1*T)) a b -> samep (map proposal_of a) (map proposal_of b).
Proof. intros H [d i]. rewrite !weight_proposal_of. apply H. Qed.

(** ** Eligible times *)
Lemma total_min_spec (F : list T) : F <> [] -> exists m, total_min F = Some m /\ In m F /\ forall f, In f F -> le m f.
Proof.
  destruct F as [|f F]; [congruence|]. intros _. cbn [total_min]. exists (fold_left (fun m t => if leb m t then m else t) F f). split; [auto|].
  revert f. induction F as [|g F IH]; intros f; cbn [fold_left]; [split; [left; auto|intros x [<-|[]]; apply le_refl]|].
  destruct (IH (if leb f g then f else g)) as [H1 H2]. split.
  - destruct H1 as [H1|H1]; [|right; right; auto]. rewrite <- H1. destruct (leb f g); [left; auto|right; left; auto].
  - assert (Hl : le (if leb f g then f else g) f /\ le (if leb f g then f else g) g).
    { destruct (leb f g) eqn:E; [split; [apply le_refl|apply leb_le; auto]|]. split; [|apply le_refl]. destruct (le_total f g) as [H|H]; auto. apply leb_le in H. congruence. }
    intros x [<-|[<-|Hx]]; [eapply le_trans; [apply H2; left; auto|tauto]|eapply le_trans; [apply H2; left; auto|tauto]|apply H2; right; auto].
Qed.
Lemma eligible_released F (e : entry) : eligible comparison F (initial_of e) = true -> released comparison F (proposal_of e).
Proof.
  unfold eligible, released. rewrite pinit_of. intros H f Hf. destruct (total_min_spec F) as (m & Em & _ & Hm); [intros ->; destruct Hf|]. rewrite Em in H. apply negb_true_iff in H.
  destruct (comparison f (initial_of e)) eqn:E; auto. rewrite <- H. symmetry. eapply (fo_earlier _ HO); eauto.
Qed.
Lemma stuck_blocked F (e : entry) : eligible comparison F (initial_of e) = false -> blocked comparison F (proposal_of e).
Proof.
  unfold eligible, blocked. rewrite pinit_of. intros H. destruct F as [|f F]; [discriminate|]. destruct (total_min_spec (f :: F)) as (m & Em & Hm & _); [congruence|].
  rewrite Em in H. apply negb_false_iff in H. eauto.
Qed.
Lemma eligible_earlier F i i' : le i i' -> eligible comparison F i' = true -> eligible comparison F i = true.
Proof.
  unfold eligible. destruct (total_min F) as [m|]; auto. rewrite !negb_true_iff. intros Hl H. destruct (comparison m i) eqn:E; auto. rewrite <- H. symmetry. eapply (fo_later _ HO); eauto.
Qed.

(** ** Sorting *)
Inductive by_initial : list entry -> Prop :=
| bi_nil : by_initial []
| bi_cons : forall e l, Forall (fun e' => le (initial_of e) (initial_of e')) l -> by_initial l -> by_initial (e :: l).
Lemma by_initial_app a b : by_initial (a ++ b) -> by_initial a /\ by_initial b /\ forall x y, In x a -> In y b -> le (initial_of x) (initial_of y).
Proof.
  induction a as [|e a IH]; intros H; [split; [constructor|]; split; [auto|intros x y []]|]. cbn [app] in H. inversion H as [|? ? H1 H2]; subst. apply Forall_app in H1 as [H1 H1']. destruct (IH H2) as (I1 & I2 & I3).
  split; [constructor; auto|]. split; [auto|]. intros x y [<-|Hx] Hy; [rewrite Forall_forall in H1'; auto|auto].
Qed.
Lemma consolidated_by_initial (l : list entry) : consolidated (A:=T*(K*V1*T)) l -> by_initial l.
Proof.
  induction l as [|e l IH]; intros H; [constructor|]. apply consolidated_cons_inv in H as (H1 & _ & H3). constructor; auto.
  eapply Forall_impl; [|exact H3]. cbv beta. intros q Hq. destruct e as [[i d] r], q as [[i' d'] r']. unfold initial_of. cbn [fst snd] in *.
  apply lt_pair in Hq as [Hq|[Hq _]]; [apply le_lteq; auto|subst; apply le_refl].
Qed.
Lemma key_sorted_by_key (ps : list proposal) : key_sorted (A:=K*V1*T*T) ps -> by_key ps.
Proof.
  induction 1 as [|p ps H _ IH]; constructor; auto. eapply Forall_impl; [|exact H]. cbv beta. intros q Hq. destruct p as [[[[k v] t] i] r], q as [[[[k' v'] t'] i'] r']. unfold pkey. cbn [fst snd] in *.
  apply le_lteq in Hq as [Hq|Hq]; [|inversion Hq; apply le_refl].
  apply lt_pair in Hq as [Hq|[Hq _]]; [|inversion Hq; apply le_refl]. apply lt_pair in Hq as [Hq|[Hq _]]; [|inversion Hq; apply le_refl].
  apply lt_pair in Hq as [Hq|[Hq _]]; [apply le_lteq; auto|subst; apply le_refl].
Qed.
Lemma sort_ready_ok n (data : list entry) : n <= length data -> exists ready, sort_ready n data = ready ++ skipn n data /\ length ready = n /\
  Permutation ready (firstn n data) /\ by_key (map proposal_of ready).
Proof.
  intros Hn. unfold sort_ready. set (s := isort (A:=K*V1*T*T) (map proposal_of (firstn n data))). exists (map entry_of s). split; [auto|].
  assert (HP : Permutation (map entry_of s) (firstn n data)).
  { eapply perm_trans; [apply Permutation_map, isort_perm|]. rewrite map_map. erewrite map_ext; [rewrite map_id; auto|]. intros e. apply entry_proposal. }
  split; [rewrite (Permutation_length HP), firstn_length; lia|]. split; [exact HP|]. rewrite map_proposal_entry. apply key_sorted_by_key, isort_sorted.
Qed.
Lemma while_count_spec {X} (p : X -> bool) l : exists a b, l = a ++ b /\ length a = while_count p l /\ Forall (fun x => p x = true) a /\ match b with [] => True | x :: _ => p x = false end.
Proof.
  induction l as [|x l (a & b & E & L & H1 & H2)]; [exists [], []; auto|]. cbn [while_count]. destruct (p x) eqn:Ex.
  - exists (x :: a), b. subst l. cbn [length app]. rewrite L. auto.
  - exists [], (x :: l). auto.
Qed.

(** ** Counts of initial times *)
Lemma weight_counts c (l : list entry) t : weight (counts c l) t = (c * Z.of_nat (length (filter (fun e => eqb (initial_of e) t) l)))%Z.
Proof.
  unfold counts. induction l as [|e l IH]; [simpl; rewrite Z.mul_0_r; auto|]. cbn [map]. rewrite weight_cons', IH. cbn [fst snd filter]. destruct (eqb (initial_of e) t); cbn [length].
  - rewrite Nat2Z.inj_succ. cbn [dplus Diff_Z]. ring.
  - apply dplus_0_l.
Qed.
Lemma counts_perm c (a b : list entry) : Permutation a b -> same_weights (counts c a) (counts c b).
Proof. intros H. apply weight_perm. unfold counts. apply Permutation_map, H. Qed.
Lemma lower_beyond lower (data : list entry) t : same_weights lower (counts 1 data) -> (beyond (CaptureM.ma_frontier lower) t <-> beyond (map initial_of data) t).
Proof.
  intros H. rewrite CaptureP.ma_frontier_beyond. split.
  - intros (t' & Hle & Hw). rewrite (H t'), weight_counts in Hw. destruct (filter (fun e => eqb (initial_of e) t') data) as [|e l] eqn:E; [simpl in Hw; lia|].
    assert (In e data /\ eqb (initial_of e) t' = true) as [H1 H2] by (apply (proj1 (filter_In (fun e => eqb (initial_of e) t') e data)); rewrite E; left; auto). destruct (eqb_spec (initial_of e) t') as [H3|]; [|discriminate]. exists t'. split; [apply in_map_iff; exists e; split; [exact H3|exact H1]|exact Hle].
  - intros (t' & Ht & Hle). exists t'. split; [auto|]. rewrite (H t'), weight_counts. apply in_map_iff in Ht as (e & <- & He).
    assert (Hi : In e (filter (fun e' => eqb (initial_of e') (initial_of e)) data)) by (apply filter_In; split; [auto|apply eqb_refl]).
    destruct (filter (fun e' => eqb (initial_of e') (initial_of e)) data) as [|e' l]; [destruct Hi|]. cbn [length]. lia.
Qed.
Lemma downgrade_ok (caps F : list T) : sub F caps -> cs_downgrade caps F = Some F.
Proof.
  intros H. unfold cs_downgrade. assert (E : forallb (ac_less_equal caps) F = true); [|rewrite E; auto]. apply forallb_forall. intros f Hf. apply ac_less_equal_spec. apply H, beyond_in, Hf.
Qed.
Lemma caps_for_ok (caps : list T) : forall F blob_caps, sub F caps -> exists c, caps_for caps blob_caps F = Some c /\ forall t, beyond c t <-> beyond blob_caps t \/ beyond F t.
Proof.
  induction F as [|f F IH]; intros bc H; cbn [caps_for]; [exists bc; split; [auto|]; intros t; split; [auto|intros [H1|H1]; [auto|destruct (beyond_nil _ H1)]]|].
  unfold cs_delayed. assert (E : ac_less_equal caps f = true) by (apply ac_less_equal_spec, H, beyond_in; left; auto). rewrite E.
  destruct (IH (ac_insert bc f)) as (c & Ec & Hc); [intros t Ht; apply H, beyond_cons; auto|]. exists c. split; [auto|]. intros t. rewrite Hc, ac_insert_beyond, beyond_cons. tauto.
Qed.

(** ** Blobs *)
Definition ready_len (b : blob) : nat := length (b_data b) - b_stuck b.
Record blob_ok (F : list T) (b : blob) : Prop := {
  bo_stuck : b_stuck b <= length (b_data b);
  bo_key : by_key (map proposal_of (firstn (ready_len b) (b_data b)));
  bo_released : Forall (fun e => released comparison F (proposal_of e)) (firstn (ready_len b) (b_data b));
  bo_initial : by_initial (skipn (ready_len b) (b_data b));
  bo_timed : Forall (fun e => tle (initial_of e) (ptime (proposal_of e)) = true) (b_data b);
  bo_lower : same_weights (b_lower b) (counts 1 (b_data b));
  bo_caps : forall t, beyond (b_caps b) t <-> beyond (map initial_of (b_data b)) t
}.
(** nothing in the blob can be answered *)
Definition all_blocked (F : list T) (b : blob) : Prop := Forall (fun e => blocked comparison F (proposal_of e)) (skipn (ready_len b) (b_data b)).
Definition idle (b : blob) : Prop := b_stuck b = length (b_data b).

Lemma blob_ok_later F F' b : sub F' F -> blob_ok F b -> blob_ok F' b.
Proof.
  intros HF []. constructor; auto. eapply Forall_impl; [|exact bo_released0]. cbv beta. intros e He f Hf. destruct (HF f (beyond_in _ _ Hf)) as (f0 & Hf0 & Hl).
  destruct (comparison f (pinit (proposal_of e))) eqn:E; auto. rewrite <- (He f0 Hf0). symmetry. eapply (fo_earlier _ HO); [apply tle_le; eauto|auto].
Qed.
Lemma made_blob F caps lower ready stuck n :
  by_key (map proposal_of ready) -> Forall (fun e => released comparison F (proposal_of e)) ready -> by_initial stuck -> n = length stuck ->
  Forall (fun e => tle (initial_of e) (ptime (proposal_of e)) = true) (ready ++ stuck) -> same_weights lower (counts 1 (ready ++ stuck)) ->
  (forall t, beyond caps t <-> beyond (map initial_of (ready ++ stuck)) t) ->
  blob_ok F {| b_caps := caps; b_lower := lower; b_data := ready ++ stuck; b_stuck := n |} /\ ready_len {| b_caps := caps; b_lower := lower; b_data := ready ++ stuck; b_stuck := n |} = length ready.
Proof.
  intros H1 H2 H3 -> H4 H5 H6. assert (E : ready_len {| b_caps := caps; b_lower := lower; b_data := ready ++ stuck; b_stuck := length stuck |} = length ready).
  { unfold ready_len. cbn [b_data b_stuck]. rewrite app_length. lia. }
  split; [|exact E]. constructor; rewrite ?E; cbn [b_data b_stuck b_caps b_lower]; auto; rewrite ?firstn_app, ?skipn_app, ?Nat.sub_diag, ?firstn_all, ?skipn_all; cbn [firstn skipn app]; rewrite ?app_nil_r; auto.
  rewrite app_length. lia.
Qed.

Lemma beyond_perm (a b : list entry) t : Permutation a b -> beyond (map initial_of a) t -> beyond (map initial_of b) t.
Proof. intros HP (f & Hf & Hl). exists f. split; [|auto]. eapply Permutation_in; [apply Permutation_map, HP|exact Hf]. Qed.

Lemma arrive_ok F caps (arriving : list entry) : Forall (fun e => beyond caps (initial_of e) /\ tle (initial_of e) (ptime (proposal_of e)) = true) arriving ->
  exists bs, h2_arrive comparison F caps arriving = Some bs /\ samep (map proposal_of arriving) (map proposal_of (flat_map b_data bs)) /\
    Forall (fun b => blob_ok F b /\ all_blocked F b /\ sub (b_caps b) caps) bs.
Proof.
  intros HA. unfold h2_arrive. pose proof (consolidate_consolidated (A:=T*(K*V1*T)) arriving) as HC. pose proof (consolidate_weight (A:=T*(K*V1*T)) arriving) as HW.
  pose proof (fun x => consolidate_incl (A:=T*(K*V1*T)) arriving x) as HI.
  set (data := consolidate (A:=T*(K*V1*T)) arriving) in *. clearbody data.
  assert (HA' : Forall (fun e => beyond caps (initial_of e) /\ tle (initial_of e) (ptime (proposal_of e)) = true) data).
  { rewrite Forall_forall in *. intros [[i d] r] He. assert (Hi : In (i, d) (map fst arriving)) by (apply HI, (in_map fst _ _ He)). apply in_map_iff in Hi as ([[i' d'] r'] & Ei & Hi'). cbn [fst] in Ei.
    inversion Ei; subst i' d'. apply (HA _ Hi'). }
  destruct data as [|e0 data0] eqn:Ed; [exists []; split; [auto|]; split; [apply same_proposals, same_weights_sym, HW|constructor]|]. rewrite <- Ed in *. clear e0 data0 Ed.
  assert (HL : same_weights (CaptureM.ma_update_iter [] (counts 1 data)) (counts 1 data)) by (intros x; reflexivity).
  destruct (caps_for_ok caps (CaptureM.ma_frontier (CaptureM.ma_update_iter [] (counts 1 data))) []) as (c & Ec & Hc).
  { intros t Ht. apply (lower_beyond _ _ _ HL) in Ht as (f & Hf & Hl). apply in_map_iff in Hf as (e & <- & He). eapply beyond_mono; [exact Hl|]. rewrite Forall_forall in HA'. apply (HA' e He). }
  rewrite Ec. destruct (while_count_spec (fun e => negb (eligible comparison F (initial_of e))) (rev data)) as (a & b & E & L & S1 & S2). rewrite <- L.
  assert (Ed : data = rev b ++ rev a) by (rewrite <- rev_app_distr, <- E, rev_involutive; auto).
  assert (Hn : length data - length a = length (rev b)) by (rewrite Ed, app_length, !rev_length; lia). rewrite Hn.
  destruct (sort_ready_ok (length (rev b)) data) as (ready & Er & Lr & Pr & Kr); [rewrite Ed, app_length; lia|]. rewrite Er.
  rewrite Ed in Pr. rewrite firstn_app, Nat.sub_diag, firstn_all, firstn_O, app_nil_r in Pr.
  assert (Es : skipn (length (rev b)) data = rev a) by (rewrite Ed, skipn_app, Nat.sub_diag, skipn_all; auto). rewrite Es.
  assert (PD : Permutation (ready ++ rev a) data) by (rewrite Ed; apply Permutation_app_tail, Pr).
  pose proof (consolidated_by_initial _ HC) as HB. rewrite Ed in HB. apply by_initial_app in HB as (B1 & B2 & B3).
  destruct (made_blob F c (CaptureM.ma_update_iter [] (counts 1 data)) ready (rev a) (length a)) as [OK1 RL].
  - exact Kr.
  - apply Forall_forall. intros e He. apply eligible_released. apply (Permutation_in _ Pr) in He.
    destruct b as [|x b']; [destruct He|]. cbn [rev] in He, B1. apply negb_false_iff in S2. apply by_initial_app in B1 as (_ & _ & B1).
    apply in_app_iff in He as [He|[<-|[]]]; [|exact S2]. eapply eligible_earlier; [|exact S2]. apply B1; [auto|left; auto].
  - exact B2.
  - rewrite rev_length. auto.
  - apply Forall_forall. intros e He. apply (Permutation_in _ PD) in He. rewrite Forall_forall in HA'. apply (HA' e He).
  - eapply same_weights_trans; [exact HL|]. apply counts_perm, Permutation_sym, PD.
  - intros t. rewrite Hc, (lower_beyond _ _ _ HL). split; [intros [H|H]; [destruct (beyond_nil _ H)|eapply beyond_perm; [apply Permutation_sym, PD|auto]]|intros H; right; eapply beyond_perm; [exact PD|auto]].
  - eexists. split; [reflexivity|]. split.
    + cbn [flat_map b_data]. rewrite app_nil_r. eapply same_weights_trans; [apply same_proposals, same_weights_sym, HW|]. apply same_proposals. apply weight_perm, Permutation_sym, PD.
    + constructor; [|constructor]. split; [exact OK1|]. split.
      * unfold all_blocked. rewrite RL. cbn [b_data]. rewrite skipn_app, Nat.sub_diag, skipn_all. cbn [app skipn]. apply Forall_forall. intros e He. apply stuck_blocked.
        rewrite Forall_forall in S1. apply in_rev in He. specialize (S1 e He). apply negb_true_iff in S1. auto.
      * cbn [b_caps]. intros t Ht. apply Hc in Ht as [Ht|Ht]; [destruct (beyond_nil _ Ht)|]. apply (lower_beyond _ _ _ HL) in Ht as (f & Hf & Hl). apply in_map_iff in Hf as (e & <- & He).
        eapply beyond_mono; [exact Hl|]. rewrite Forall_forall in HA'. apply (HA' e He).
Qed.

Lemma idle_ready b : idle b -> ready_len b = 0.
Proof. unfold idle, ready_len. lia. Qed.
Lemma nibble_ok F b : blob_ok F b -> exists b', h2_nibble comparison F b = Some b' /\ Permutation (b_data b') (b_data b) /\ blob_ok F b' /\ sub (b_caps b') (b_caps b) /\
  (idle b \/ all_blocked F b -> all_blocked F b').
Proof.
  intros HB. unfold h2_nibble. destruct (b_stuck b =? length (b_data b)) eqn:Ei.
  - apply Nat.eqb_eq in Ei. assert (R0 : ready_len b = 0) by (apply idle_ready; auto). destruct (while_count_spec (fun e => eligible comparison F (initial_of e)) (b_data b)) as (a & c & E & L & S1 & S2). rewrite <- L.
    pose proof (bo_initial _ _ HB) as HI. rewrite R0 in HI. cbn [skipn] in HI.
    assert (Sc : Forall (fun e => blocked comparison F (proposal_of e)) c).
    { rewrite E in HI. apply by_initial_app in HI as (_ & HI & _). destruct c as [|x c]; [constructor|]. inversion HI as [|? ? H1 H2]; subst. rewrite Forall_forall in *. intros e He. apply stuck_blocked.
      destruct He as [<-|He]; [auto|]. destruct (eligible comparison F (initial_of e)) eqn:Ee; auto. rewrite <- S2. symmetry. eapply eligible_earlier; [apply H1, He|auto]. }
    destruct (0 <? length a) eqn:E0.
    + destruct (sort_ready_ok (length a) (b_data b)) as (ready & Er & Lr & Pr & Kr); [rewrite E, app_length; lia|]. rewrite Er.
      rewrite E in Pr. rewrite firstn_app, Nat.sub_diag, firstn_all, firstn_O, app_nil_r in Pr.
      assert (Es : skipn (length a) (b_data b) = c) by (rewrite E, skipn_app, Nat.sub_diag, skipn_all; auto). rewrite Es.
      assert (PD : Permutation (ready ++ c) (b_data b)) by (rewrite E; apply Permutation_app_tail, Pr).
      assert (HL : same_weights (CaptureM.ma_update_iter [] (counts 1 (ready ++ c))) (counts 1 (ready ++ c))) by (intros x; reflexivity).
      assert (Hc : sub (CaptureM.ma_frontier (CaptureM.ma_update_iter [] (counts 1 (ready ++ c)))) (b_caps b)).
      { intros t Ht. apply (lower_beyond _ _ _ HL) in Ht. apply (bo_caps _ _ HB). eapply beyond_perm; [exact PD|auto]. }
      rewrite (downgrade_ok _ _ Hc). destruct (made_blob F (CaptureM.ma_frontier (CaptureM.ma_update_iter [] (counts 1 (ready ++ c)))) (CaptureM.ma_update_iter [] (counts 1 (ready ++ c))) ready c (b_stuck b - length a)) as [OK1 RL].
      * exact Kr.
      * apply Forall_forall. intros e He. apply eligible_released. apply (Permutation_in _ Pr) in He. rewrite Forall_forall in S1. auto.
      * rewrite E in HI. apply by_initial_app in HI. tauto.
      * rewrite Ei, E, app_length. lia.
      * apply Forall_forall. intros e He. apply (Permutation_in _ PD) in He. pose proof (bo_timed _ _ HB) as HT. rewrite Forall_forall in HT. auto.
      * exact HL.
      * intros t. apply lower_beyond, HL.
      * eexists. split; [reflexivity|]. cbn [b_data b_caps]. split; [exact PD|]. split; [exact OK1|]. split; [exact Hc|]. intros _. unfold all_blocked. rewrite RL. cbn [b_data].
        rewrite skipn_app, Nat.sub_diag, skipn_all. exact Sc.
    + exists b. split; [auto|]. split; [auto|]. split; [auto|]. split; [auto|]. intros _. unfold all_blocked. rewrite R0. cbn [skipn]. apply Nat.ltb_ge in E0.
      destruct a; [|simpl in E0; lia]. rewrite E. exact Sc.
  - exists b. split; [auto|]. split; [auto|]. split; [auto|]. split; [auto|]. apply Nat.eqb_neq in Ei. intros [H|H]; [unfold idle in H; congruence|auto].
Qed.

Lemma h2_ready_ok tbs (U : trie K V2 T R2) fuel caps : strictly_sorted (map fst U) -> Forall (fun e => length (snd e) <= fuel) U ->
  forall ready y ys tc j jv, by_key (map proposal_of ready) -> shows (cl_ops cops) tbs U tc {| kp := j; vp := jv |} -> Forall (fun e => before U j (pkey (proposal_of e))) ready ->
  Forall (fun e => beyond caps (initial_of e) /\ tle (initial_of e) (ptime (proposal_of e)) = true) ready ->
  exists A rest sent y', h2_ready cops comparison output_func (MU:=MU) fuel tbs caps y ys tc ready = Some (rest, counts (-1) A, sent, y') /\
    ready = A ++ rest /\ same (flat_map snd sent) (answers (map proposal_of A) (CursorSpec.flat U)) /\
    Forall (fun o => In (fst o) caps /\ Forall (fun u => tle (fst o) (uinit u) = true /\ tle (uinit u) (utime u) = true) (snd o)) sent /\
    (rest = [] \/ fst y' = true) /\ (y = false -> Forall (eq false) ys -> fst y' = false /\ Forall (eq false) (snd y')).
Proof.
  intros HS HF. induction ready as [|e ready IH]; intros y ys tc j jv HK HT HB HE; cbn [h2_ready].
  { exists [], [], [], (y, ys). split; [auto|]. split; [auto|]. split; [intros x; reflexivity|]. split; [constructor|]. auto. }
  destruct (ask y ys) as [y1 ys1] eqn:Ea. destruct y1.
  { exists [], (e :: ready), [], (true, ys1). split; [auto|]. split; [auto|]. split; [intros x; reflexivity|]. split; [constructor|]. split; [auto|].
    intros -> Hn. destruct (ask_no ys Hn) as (ys2 & Ea2 & _). rewrite Ea in Ea2. discriminate. }
  cbn [map] in HK. inversion HK as [|? ? Hle HK']; subst. inversion HB as [|? ? Hb HB']; subst. inversion HE as [|? ? [He1 He2] HE']; subst.
  destruct e as [[i [[k v] t]] r]. set (e := (i, (k, v, t), r)) in *.
  destruct (hj_position_ok i caps He1) as (n & c & E1 & E2 & E3). rewrite E1. unfold get. rewrite E2.
  destruct (look_up_ok cops (hj_emit comparison output_func (MU:=MU) (proposal_of e)) tbs U fuel j jv tc k HS HF HT Hb) as (tc1 & j1 & jv1 & E4 & T1 & B1). rewrite E4.
  destruct (IH false ys1 tc1 j1 jv1 HK' T1) as (A & rest & sent & y' & E & P1 & P2 & P3 & P4 & P5).
  { apply Forall_forall. intros q Hq n0 k0 Hn E0. eapply lt_le_trans; [eapply B1; eauto|]. rewrite Forall_forall in Hle. apply (Hle (proposal_of q)). apply in_map, Hq. }
  { exact HE'. }
  rewrite E. exists (e :: A), rest. eexists _, y'. split; [reflexivity|]. split; [rewrite P1; auto|]. cbn [flat_map snd]. split.
  { cbn [map]. rewrite answers_cons. apply same_weights_app; [|exact P2]. exact (look_up_answers comparison output_func (proposal_of e) U). }
  split.
  { constructor; [|exact P3]. cbn [fst snd]. split; [eapply nth_error_In; eauto|]. apply Forall_forall. intros u Hu. apply in_flat_map in Hu as (x & _ & Hu).
    apply hj_emit_times in Hu as [Hu1 Hu2]. rewrite Hu1. change (pinit (proposal_of e)) with i. split; [auto|]. eapply tle_trans; [exact He2|exact Hu2]. }
  split; [exact P4|]. intros -> Hn. destruct (ask_no ys Hn) as (ys2 & Ea2 & Hn2). rewrite Ea in Ea2. inversion Ea2; subst. auto.
Qed.

Section Loop.
Variable s : Spine B M T. Variable bs : list B. Hypothesis Hs : reads ops contents laws s bs.
Variable F : list T.
Definition emitted (caps : list T) (o : T * list update) : Prop := In (fst o) caps /\ Forall (fun u => tle (fst o) (uinit u) = true /\ tle (uinit u) (utime u) = true) (snd o).

Lemma process2_ok y ys b : blob_ok F b ->
  exists b' A sent y', h2_process ops cops new comparison output_func (MU:=MU) s y ys b = Some (b', sent, y') /\
    b_data b = A ++ b_data b' /\ Forall (fun e => released comparison F (proposal_of e)) A /\ same (flat_map snd sent) (answers (map proposal_of A) (flat_map contents bs)) /\
    Forall (emitted (b_caps b)) sent /\ blob_ok F b' /\ sub (b_caps b') (b_caps b) /\ (all_blocked F b -> all_blocked F b') /\
    (idle b' \/ fst y' = true) /\ (y = false -> Forall (eq false) ys -> fst y' = false /\ Forall (eq false) (snd y')).
Proof.
  intros HB. unfold h2_process. destruct Hs as [E HBs]. rewrite E. destruct (cursor_list_no_seek ops contents laws cops new HR bs HBs) as (tc & Ec & Pc). rewrite Ec.
  set (U := union_trie (tries contents bs)) in *. destruct (union_length contents bs) as [_ UL]. fold U in UL. rewrite (sum_len_contents ops contents laws bs HBs).
  fold (ready_len b). set (n := ready_len b) in *. set (ready := firstn n (b_data b)). set (stuck := skipn n (b_data b)).
  assert (Ed : b_data b = ready ++ stuck) by (symmetry; apply firstn_skipn).
  assert (Ls : length stuck = b_stuck b) by (unfold stuck; rewrite skipn_length; unfold n, ready_len; pose proof (bo_stuck _ _ HB); lia).
  destruct (h2_ready_ok bs U (length (flat_map contents bs)) (b_caps b) (union_sorted contents bs) UL ready y ys tc 0 0) as (A & rest & sent & y' & E1 & P1 & P2 & P3 & P4 & P5).
  { apply (bo_key _ _ HB). }
  { apply shows_start. exact Pc. }
  { apply Forall_forall. intros p _ m k0 Hm. lia. }
  { pose proof (bo_timed _ _ HB) as HT. rewrite Forall_forall in *. intros e He. assert (Hi : In e (b_data b)) by (rewrite Ed; apply in_app_iff; auto). split; [|apply HT, Hi].
    apply (bo_caps _ _ HB). apply beyond_in, in_map, Hi. }
  rewrite E1. pose proof (bo_released _ _ HB) as Hrel. fold n in Hrel. fold ready in Hrel. rewrite P1 in Hrel. apply Forall_app in Hrel as [Ra Rr]. pose proof (bo_key _ _ HB) as Hk.
  assert (Kr : by_key (map proposal_of rest)).
  { fold n in Hk. fold ready in Hk. rewrite P1 in Hk. clear - Hk. induction A as [|a A IH]; auto. cbn [app map] in Hk. inversion Hk; auto. }
  assert (Sm : same (flat_map snd sent) (answers (map proposal_of A) (flat_map contents bs))).
  { eapply same_weights_trans; [exact P2|]. clear - A contents bs MU. induction A as [|p A IH]; [intros x; reflexivity|]. cbn [map]. rewrite !answers_cons. apply same_weights_app; auto.
    apply answer_congr_r. apply union_weights. }
  assert (HI : by_initial stuck) by apply (bo_initial _ _ HB).
  assert (HT : Forall (fun e => tle (initial_of e) (ptime (proposal_of e)) = true) (rest ++ stuck)).
  { pose proof (bo_timed _ _ HB) as HT. rewrite Ed, P1, <- app_assoc in HT. apply Forall_app in HT. tauto. }
  assert (HW : same_weights (CaptureM.ma_update_iter (b_lower b) (counts (-1) A)) (counts 1 (rest ++ stuck))).
  { intros x. unfold CaptureM.ma_update_iter. rewrite weight_app, (bo_lower _ _ HB x), Ed, P1, !weight_counts, <- app_assoc, (filter_app _ A), !app_length. cbn [dplus Diff_Z]. lia. }
  assert (Sub : sub (CaptureM.ma_frontier (CaptureM.ma_update_iter (b_lower b) (counts (-1) A))) (b_caps b)).
  { intros t Ht. apply (lower_beyond _ _ _ HW) in Ht. apply (bo_caps _ _ HB). rewrite Ed, P1, <- app_assoc, map_app. apply beyond_app. auto. }
  assert (Dt : b_data b = A ++ rest ++ stuck) by (rewrite Ed, P1, app_assoc; auto).
  destruct (rest ++ stuck) as [|e0 l0] eqn:Er.
  - apply app_eq_nil in Er as [-> Er]. assert (b_stuck b = 0) as Z0 by (rewrite <- Ls, Er; auto). eexists _, A, sent, y'. split; [reflexivity|]. cbn [b_data b_caps b_stuck b_lower]. split; [exact Dt|]. split; [exact Ra|]. split; [exact Sm|]. split; [exact P3|]. split.
    { refine (proj1 (made_blob F [] [] [] [] (b_stuck b) _ _ _ _ _ _ _)); [constructor|constructor|constructor|exact Z0|constructor|intros x; reflexivity|intros x; reflexivity]. }
    split; [intros t Ht; destruct (beyond_nil _ Ht)|]. split; [intros _; unfold all_blocked; cbn [b_data]; rewrite skipn_nil; constructor|]. split; [left; unfold idle; auto|exact P5].
  - rewrite <- Er in *. clear e0 l0 Er. rewrite (downgrade_ok _ _ Sub).
    destruct (made_blob F (CaptureM.ma_frontier (CaptureM.ma_update_iter (b_lower b) (counts (-1) A))) (CaptureM.ma_update_iter (b_lower b) (counts (-1) A)) rest stuck (b_stuck b)) as [OK1 RL]; auto.
    { intros t. apply lower_beyond, HW. }
    eexists _, A, sent, y'. split; [reflexivity|]. cbn [b_data b_caps]. split; [exact Dt|]. split; [exact Ra|]. split; [exact Sm|]. split; [exact P3|]. split; [exact OK1|]. split; [exact Sub|]. split.
    { intros Hb. unfold all_blocked in *. rewrite RL. cbn [b_data]. rewrite skipn_app, Nat.sub_diag, skipn_all. exact Hb. }
    split; [|exact P5]. destruct P4 as [->|P4]; [left|right; auto]. unfold idle. cbn [b_stuck b_data app]. auto.
Qed.

Lemma blobs_loop_ok : forall blobs y ys, Forall (blob_ok F) blobs ->
  exists blobs' A sent, h2_blobs_loop ops cops new comparison output_func (MU:=MU) s y ys blobs = Some (blobs', sent) /\
    samep (map proposal_of (flat_map b_data blobs)) (A ++ map proposal_of (flat_map b_data blobs')) /\
    Forall (released comparison F) A /\ incl A (map proposal_of (flat_map b_data blobs)) /\ same (flat_map snd sent) (answers A (flat_map contents bs)) /\
    Forall (emitted (flat_map b_caps blobs)) sent /\ Forall (blob_ok F) blobs' /\ sub (flat_map b_caps blobs') (flat_map b_caps blobs) /\
    (Forall (all_blocked F) blobs -> Forall (all_blocked F) blobs') /\ (y = false -> Forall (eq false) ys -> Forall idle blobs').
Proof.
  induction blobs as [|b blobs IH]; intros y ys HB; cbn [h2_blobs_loop].
  { exists [], [], []. split; [auto|]. split; [intros x; reflexivity|]. split; [constructor|]. split; [intros x []|]. split; [intros x; reflexivity|]. split; [constructor|]. split; [constructor|]. auto. }
  inversion HB as [|? ? H1 HB']; subst. destruct ((b_stuck b <? length (b_data b)) && negb y) eqn:Eg.
  - apply andb_true_iff in Eg as [_ Ey]. apply negb_true_iff in Ey. subst y.
    destruct (process2_ok false ys b H1) as (b' & A1 & sent1 & [y2 ys2] & E1 & P1 & P2 & P3 & P4 & P5 & P6 & P7 & P8 & P9). rewrite E1. cbn [fst snd] in *.
    destruct (IH y2 ys2 HB') as (blobs' & A & sent & E & I1 & I2 & I3 & I4 & I5 & I6 & I7 & I8 & I9). rewrite E.
    exists (b' :: blobs'), (map proposal_of A1 ++ A), (sent1 ++ sent). split; [auto|]. cbn [flat_map]. split.
    { rewrite !map_app, P1, map_app. intros x. rewrite !weight_app, (I1 x), weight_app. dperm. }
    split; [apply Forall_app; split; [apply Forall_map; exact P2|exact I2]|]. split.
    { rewrite map_app, P1, map_app. intros x Hx. apply in_app_iff in Hx as [Hx|Hx]; [apply in_app_iff; left; apply in_app_iff; auto|apply in_app_iff; right; auto]. }
    split; [rewrite flat_map_app, answers_app_l; apply same_weights_app; auto|]. split.
    { apply Forall_app. split; [eapply Forall_impl; [|exact P4]|eapply Forall_impl; [|exact I5]]; intros o [O1 O2]; split; auto; apply in_app_iff; auto. }
    split; [auto|]. split; [intros t; rewrite !beyond_app; intros [H|H]; auto|]. split.
    { intros H. inversion H; subst. constructor; auto. }
    intros _ Hn. destruct (P9 eq_refl Hn) as [Y1 Y2]. constructor; [destruct P8; [auto|congruence]|auto].
  - destruct (IH y ys HB') as (blobs' & A & sent & E & I1 & I2 & I3 & I4 & I5 & I6 & I7 & I8 & I9). rewrite E.
    exists (b :: blobs'), A, sent. split; [auto|]. cbn [flat_map]. split; [rewrite !map_app; intros x; rewrite !weight_app, (I1 x), weight_app; dperm|]. split; [auto|].
    split; [rewrite map_app; intros x Hx; apply in_app_iff; auto|]. split; [auto|].
    split; [eapply Forall_impl; [|exact I5]; intros o [O1 O2]; split; auto; apply in_app_iff; auto|]. split; [auto|]. split; [intros t; rewrite !beyond_app; intros [H|H]; auto|].
    split; [intros H; inversion H; subst; constructor; auto|]. intros -> Hn. constructor; [|auto]. cbn [negb] in Eg. rewrite andb_true_r in Eg. apply Nat.ltb_ge in Eg. pose proof (bo_stuck _ _ H1). unfold idle. lia.
Qed.
End Loop.

Lemma nibble_all_ok F : forall blobs, Forall (blob_ok F) blobs ->
  exists blobs', nibble_all comparison F blobs = Some blobs' /\ Permutation (flat_map b_data blobs') (flat_map b_data blobs) /\ Forall (blob_ok F) blobs' /\
    sub (flat_map b_caps blobs') (flat_map b_caps blobs) /\ (Forall (fun b => idle b \/ all_blocked F b) blobs -> Forall (all_blocked F) blobs').
Proof.
  induction blobs as [|b blobs IH]; intros H; cbn [nibble_all]; [exists []; auto|]. inversion H as [|? ? H1 H2]; subst.
  destruct (nibble_ok F b H1) as (b' & E1 & P1 & P2 & P3 & P4). destruct (IH H2) as (blobs' & E & I1 & I2 & I3 & I4). rewrite E1, E. exists (b' :: blobs'). split; [auto|]. cbn [flat_map].
  split; [apply Permutation_app; auto|]. split; [auto|]. split; [intros t; rewrite !beyond_app; intros [G|G]; auto|]. intros G. inversion G; subst. auto.
Qed.
End Blobs.

(** ** The operator *)
Section World.
Context {B M C K V1 V2 D T R1 R2 R3 : Type} {OK : Ord K} {OV1 : Ord V1} {OV2 : Ord V2} {OD : Ord D} {TT : Time T}
  {D1 : Diff R1} {D2 : Diff R2} {D3 : Diff R3} {MU : Multiply R1 R2 R3}.
Variable ops : BatchOps B M T. Variable contents : B -> list (K * V2 * T * R2). Variable laws : BatchLaws (D:=K*V2) ops contents.
Variable cops : CursorOps B C K V2 T R2. Variable new : C.
Hypothesis HR : readable ops contents laws cops new.
Variable frontier_func : T -> list T.
Variable comparison : T -> T -> bool.
Variable output_func : K -> V1 -> V2 -> D.
Hypothesis HC : compatible comparison frontier_func.
Hypothesis HO : follows_total_order comparison.
Variable may_answer : list bool -> Prop.
Notation proposal := (K * V1 * T * T * R1)%type.
Notation entry := (T * (K * V1 * T) * R1)%type.
Notation update := (D * T * T * R3)%type.
Notation answers := (answers comparison output_func (MU:=MU)).
Notation same := (same_weights (A:=D*T*T) (R:=R3)).
Notation samep := (same_weights (A:=K*V1*T*T) (R:=R1)).
Notation h2world := (h2world B M K V1 D T R1 R3).
Notation h2step := (h2step ops contents laws cops new frontier_func comparison output_func may_answer (MU:=MU)).
Notation h2reaches := (h2reaches ops contents laws cops new frontier_func comparison output_func may_answer (MU:=MU)).
Notation h2_input := (h2_input contents).
Notation activate := (h2_activate ops cops new frontier_func comparison output_func (MU:=MU)).
Notation sub A B := (forall t, beyond A t -> beyond B t).
Notation protects := (protects frontier_func).

Record h2inv (w : h2world) (A : list proposal) : Prop := {
  h2i_side : side_inv ops contents laws (h2w_in w);
  h2i_allowed : allowed (h2_trace (h2w_op w)) (sd_logical (h2w_in w)) (sd_physical (h2w_in w));
  h2i_asked : samep (h2w_asked w) (A ++ kept_back (h2w_op w));
  h2i_released : Forall (released comparison (sd_front (h2w_in w))) A;
  h2i_produced : same (h2_produced w) (answers A (h2_input w));
  h2i_blobs : Forall (fun b => blob_ok comparison (sd_front (h2w_in w)) b /\ b_data b <> []) (h2_blobs (h2w_op w));
  h2i_protects : protects (h2_trace (h2w_op w)) (h2w_front w ++ capabilities (h2w_op w));
  h2i_out : Forall (fun o => Forall (fun u => tle (fst o) (uinit u) = true /\ tle (uinit u) (utime u) = true) (snd o)) (h2w_out w);
  h2i_idle : (forall ys, may_answer ys -> Forall (eq false) ys) -> Forall idle (h2_blobs (h2w_op w))
}.

Lemma h2starts_inv handle w : h2starts ops contents laws frontier_func handle w -> h2inv w [].
Proof.
  intros ((e & HB) & HA & HP & E1 & E2 & E3). constructor; rewrite ?E2; unfold h2_produced; rewrite ?E1, ?E3; simpl; auto; try (intros x; reflexivity).
  - eapply begins_inv; eauto.
  - destruct handle as [L P]. destruct HA as [H1 H2]. split; [auto|]. cbn [snd]. intros t Ht. apply H2. apply antichain_join_beyond in Ht. tauto.
  - destruct handle as [L P]. simpl. intros f t Hf Ht. rewrite app_nil_r in Hf. eapply HP; eauto.
Qed.

Lemma filter_blobs_data (blobs : list (blob K V1 T R1)) : flat_map b_data (filter (fun b => match b_data b with [] => false | _ => true end) blobs) = flat_map b_data blobs.
Proof. induction blobs as [|b blobs IH]; simpl; auto. destruct (b_data b) eqn:E; simpl; rewrite ?E, IH; auto. Qed.
Lemma filter_blobs_caps (blobs : list (blob K V1 T R1)) p : sub (flat_map b_caps (filter p blobs)) (flat_map b_caps blobs).
Proof. intros t (f & Hf & Hl). exists f. split; [|auto]. apply in_flat_map in Hf as (b & Hb & Hf). apply filter_In in Hb as [Hb _]. apply in_flat_map. eauto. Qed.
Lemma again_idle (blobs : list (blob K V1 T R1)) F : Forall (blob_ok comparison F) blobs ->
  (existsb (fun b => b_stuck b <? length (b_data b)) blobs = false <-> Forall idle blobs).
Proof.
  induction 1 as [|b blobs H _ IH]; [split; auto|]. cbn [existsb]. rewrite orb_false_iff, IH, Nat.ltb_ge. pose proof (bo_stuck _ _ _ H). split.
  - intros [H1 H2]. constructor; auto. unfold idle. lia.
  - intros H1. inversion H1 as [|? ? H2 H3]; subst. unfold idle in H2. split; [lia|auto].
Qed.

Lemma activate2_ok w A s' msgs1 msgs2 F' F2 ys : h2inv w A -> delivers contents (h2w_in w) msgs2 F2 s' ->
  Forall (fun m => beyond (h2w_front w) (fst m) /\ well_timed m) msgs1 -> sub F' (h2w_front w) -> may_answer ys ->
  exists h' outs again A', activate (sd_spine (h2w_in w)) msgs1 F' F2 ys (h2w_op w) = Some (h', outs, again) /\
    h2inv {| h2w_in := s'; h2w_front := F'; h2w_asked := h2w_asked w ++ flat_map snd msgs1; h2w_op := h'; h2w_out := h2w_out w ++ outs |} (A ++ A') /\
    Forall (fun o => beyond (h2w_front w ++ capabilities (h2w_op w)) (fst o)) outs /\ sub (capabilities h') (h2w_front w ++ capabilities (h2w_op w)) /\
    (again = false <-> Forall idle (h2_blobs h')) /\ (Forall (eq false) ys -> again = false) /\
    (Forall idle (h2_blobs (h2w_op w)) -> Forall (all_blocked comparison F2) (h2_blobs h')).
Proof.
  intros HI (q' & Eq & Es' & HM & HF & HQ) Hmsgs Hfront Hys.
  destruct HI as [I1 I2 I3 I4 I5 I6 I7 I8 I9].
  assert (Hrel : Forall (released comparison F2) A).
  { eapply Forall_impl; [|exact I4]. cbv beta. intros p Hp f Hf. destruct (HF f (beyond_in _ _ Hf)) as (f0 & Hf0 & Hl). destruct (comparison f (pinit p)) eqn:E; auto.
    rewrite <- (Hp f0 Hf0). symmetry. eapply (cf_earlier _ _ HC); eauto. }
  assert (Hold : Forall (blob_ok comparison F2) (h2_blobs (h2w_op w))).
  { eapply Forall_impl; [|exact I6]. cbv beta. intros b [Hb _]. eapply blob_ok_later; eauto. }
  set (old := h2w_front w ++ capabilities (h2w_op w)) in *.
  set (arriving := map entry_of (flat_map snd msgs1)).
  assert (Harr : Forall (fun e : entry => beyond (ac_from (map fst msgs1)) (initial_of e) /\ tle (initial_of e) (ptime (proposal_of e)) = true) arriving).
  { apply Forall_map, Forall_forall. intros p Hp. apply in_flat_map in Hp as (m & Hm & Hp). rewrite Forall_forall in Hmsgs. destruct (Hmsgs m Hm) as [_ Hw]. unfold well_timed in Hw. rewrite Forall_forall in Hw.
    destruct (Hw p Hp) as [W1 W2]. rewrite proposal_entry. destruct p as [[d i] r]. cbn [entry_of initial_of fst snd] in *. split; [|exact W2]. apply ac_from_beyond. exists (fst m). split; [apply in_map, Hm|exact W1]. }
  assert (Loop : exists blobs sent A',
    match h2_trace (h2w_op w) with
    | Some _ => match h2_arrive comparison F2 (ac_from (map fst msgs1)) arriving with
                | Some arrived => match nibble_all comparison F2 (h2_blobs (h2w_op w) ++ arrived) with
                                  | Some blobs => match h2_blobs_loop ops cops new comparison output_func (MU:=MU) (sd_spine (h2w_in w)) false ys blobs with
                                                  | Some (blobs, sent) => Some (filter (fun b => match b_data b with [] => false | _ => true end) blobs, sent)
                                                  | None => None end
                                  | None => None end
                | None => None end
    | None => Some (h2_blobs (h2w_op w), []) end = Some (blobs, sent) /\
    samep (kept_back (h2w_op w) ++ flat_map snd msgs1) (A' ++ map proposal_of (flat_map b_data blobs)) /\ Forall (released comparison F2) A' /\
    same (flat_map snd sent) (answers A' (h2_input w)) /\
    Forall (fun o => beyond old (fst o) /\ Forall (fun u => tle (fst o) (uinit u) = true /\ tle (uinit u) (utime u) = true) (snd o)) sent /\
    Forall (fun b => blob_ok comparison F2 b /\ b_data b <> []) blobs /\ sub (flat_map b_caps blobs) old /\
    (Forall (eq false) ys -> Forall idle blobs) /\ (Forall idle (h2_blobs (h2w_op w)) -> Forall (all_blocked comparison F2) blobs)).
  { assert (Hempty : msgs1 = [] /\ h2_blobs (h2w_op w) = [] \/ exists c, beyond old c).
    { destruct msgs1 as [|m msgs1]; [|right; exists (fst m); inversion Hmsgs as [|? ? [Hm _] _]; subst; apply beyond_app; auto]. destruct (h2_blobs (h2w_op w)) as [|b bl] eqn:Eb; [left; auto|].
      right. inversion I6 as [|? ? [Hb Hn] _]; subst. destruct (b_data b) as [|e l] eqn:Ed; [congruence|]. exists (initial_of e). apply beyond_app. right. unfold capabilities. rewrite Eb. cbn [flat_map].
      apply beyond_app. left. apply (bo_caps _ _ _ Hb). rewrite Ed. apply beyond_in. left; auto. }
    destruct Hempty as [[-> Eb]|(c0 & Hc0)].
    - exists [], [], []. unfold arriving, kept_back. rewrite Eb. split; [destruct (h2_trace (h2w_op w)); reflexivity|]. split; [intros x; reflexivity|]. split; [constructor|]. split; [intros x; reflexivity|]. split; [constructor|]. split; [constructor|].
      split; [intros t Ht; destruct (beyond_nil _ Ht)|]. auto.
    - destruct (protects_beyond frontier_func comparison HC _ _ c0 I7 Hc0) as (HL & HP & Eh & _ & Hne). rewrite Eh in *.
      destruct I2 as [A1 A2]. assert (HL' : sd_logical (h2w_in w) <> []).
      { intros EL. rewrite EL in A1. destruct HL as [|l HL]; [congruence|]. apply (beyond_nil (T:=T) l). apply A1, beyond_in. left; auto. }
      destruct I1 as (n & HS). destruct (batches_through_all_alike ops contents laws _ _ _ _ _ _ HS HL') as (bs & Eb & Ha & Hok).
      destruct (arrive_ok comparison HO F2 (ac_from (map fst msgs1)) arriving Harr) as (arrived & E1 & R1' & R2'). rewrite E1.
      assert (Hall : Forall (blob_ok comparison F2) (h2_blobs (h2w_op w) ++ arrived)).
      { apply Forall_app. split; [exact Hold|]. eapply Forall_impl; [|exact R2']. cbv beta. tauto. }
      assert (Scaps : sub (flat_map b_caps (h2_blobs (h2w_op w) ++ arrived)) old).
      { intros t Ht. rewrite flat_map_app in Ht. apply beyond_app in Ht as [Ht|Ht]; [apply beyond_app; right; exact Ht|]. destruct Ht as (f & Hf & Hl). apply in_flat_map in Hf as (b & Hb & Hf).
        rewrite Forall_forall in R2'. destruct (R2' b Hb) as (_ & _ & Hsub). eapply beyond_mono; [exact Hl|]. pose proof (Hsub f (beyond_in _ _ Hf)) as G. apply (proj1 (ac_from_beyond _ _)) in G. destruct G as (g & Hg & Hgl).
        eapply beyond_mono; [exact Hgl|]. apply in_map_iff in Hg as (m & <- & Hm). rewrite Forall_forall in Hmsgs. apply beyond_app. left. apply (Hmsgs m Hm). }
      destruct (nibble_all_ok comparison HO F2 _ Hall) as (blobs1 & E2 & N1 & N2 & N3 & N4). rewrite E2.
      destruct (blobs_loop_ok ops contents laws cops new HR comparison output_func (MU:=MU) (sd_spine (h2w_in w)) bs (conj Eb Hok) F2 blobs1 false ys N2) as (blobs' & A' & sent & E & L1 & L2 & L3 & L4 & L5 & L6 & L7 & L8 & L9).
      rewrite E. exists (filter (fun b => match b_data b with [] => false | _ => true end) blobs'), sent, A'. split; [auto|]. rewrite filter_blobs_data. split.
      { eapply same_weights_trans; [|exact L1]. unfold kept_back. eapply same_weights_trans; [|apply weight_perm, Permutation_map, Permutation_sym, N1]. rewrite flat_map_app, map_app.
        apply same_weights_app; [apply same_weights_refl|]. eapply same_weights_trans; [|exact R1']. unfold arriving. rewrite map_proposal_entry. apply same_weights_refl. }
      split; [exact L2|]. split.
      { eapply same_weights_trans; [exact L4|]. assert (G : Forall (fun p => beyond old (pinit p) /\ tle (pinit p) (ptime p) = true) A').
        { apply Forall_forall. intros p Hp. apply L3 in Hp. apply in_map_iff in Hp as (e & <- & He). apply in_flat_map in He as (b & Hb & He). rewrite Forall_forall in N2. specialize (N2 b Hb). rewrite pinit_of. split.
          - apply Scaps, N3. assert (Hbe : beyond (b_caps b) (initial_of e)) by (apply (bo_caps _ _ _ N2), beyond_in, in_map, He). destruct Hbe as (f & Hf & Hl). exists f. split; [apply in_flat_map; eauto|auto].
          - pose proof (bo_timed _ _ _ N2) as Ht. rewrite Forall_forall in Ht. auto. }
        clear - G Ha HC I7 A1 MU. induction A' as [|p A' IH]; [intros x; reflexivity|]. inversion G as [|? ? [Hc Hl] G']; subst. rewrite !answers_cons. apply same_weights_app; [|auto].
        destruct (protects_beyond frontier_func comparison HC _ _ (pinit p) I7 Hc) as (HL1 & HP1 & Eh1 & Hs & _). inversion Eh1; subst HL1 HP1.
        apply (alike_answer comparison output_func (sd_logical (h2w_in w)) p _ _ Ha).
        - intros t t' Ht. apply (cf_respects _ _ HC (pinit p)); [apply tle_refl|]. intros u Hu. apply Ht, A1, Hs, Hu.
        - apply A1, Hs. eapply beyond_mono; [|apply (cf_covers _ _ HC)]. exact Hl. }
      split; [eapply Forall_impl; [|exact L5]; cbv beta; intros o [H1 H2]; split; [apply Scaps, N3, beyond_in, H1|exact H2]|].
      split. { apply Forall_forall. intros b Hb. apply filter_In in Hb as [Hb Hd]. rewrite Forall_forall in L6. split; [auto|]. intros Ex. rewrite Ex in Hd. discriminate. }
      split; [intros t Ht; apply Scaps, N3, L7; eapply filter_blobs_caps; eauto|].
      assert (FF : forall P : blob K V1 T R1 -> Prop, Forall P blobs' -> Forall P (filter (fun b => match b_data b with [] => false | _ => true end) blobs')).
      { intros P HP'. apply Forall_forall. intros b Hb. apply filter_In in Hb as [Hb _]. rewrite Forall_forall in HP'. auto. }
      split; [intros Hn; apply FF, L9; auto|]. intros Hid. apply FF, L8, N4. apply Forall_app. split; [eapply Forall_impl; [|exact Hid]; auto|eapply Forall_impl; [|exact R2']; cbv beta; tauto]. }
  destruct Loop as (blobs & sent & A' & E & L1 & L2 & L3 & L4 & L5 & L6 & L7 & L8).
  unfold activate. fold arriving. rewrite E.
  eexists _, sent, _, A'. split; [reflexivity|]. cbn [h2_blobs h2_trace]. unfold capabilities. cbn [h2_blobs]. fold old.
  assert (Hok2 : Forall (blob_ok comparison F2) blobs) by (eapply Forall_impl; [|exact L5]; cbv beta; tauto).
  split; [|split; [eapply Forall_impl; [|exact L4]; cbv beta; tauto|split; [exact L6|split; [apply (again_idle _ F2 Hok2)|split; [|exact L8]]]]].
  2:{ intros Hn. apply (again_idle _ F2 Hok2), L7, Hn. }
  subst s'. constructor; cbn [h2w_in h2w_front h2w_asked h2w_op h2w_out h2_blobs h2_trace sd_spine sd_hist sd_upper sd_logical sd_physical sd_flight sd_front].
  - exact I1.
  - destruct (h2_trace (h2w_op w)) as [[L P]|]; [|exact I]. destruct I2 as [A1 A2]. destruct F' as [|f F'], blobs as [|e blobs]; try exact I; (split; [intros t Ht; apply A1; apply antichain_join_beyond in Ht; tauto|auto]).
  - unfold kept_back at 1. cbn [h2_blobs]. intros a. pose proof (L1 a) as La. rewrite !weight_app in *. rewrite (I3 a), weight_app, !dplus_assoc. f_equal. exact La.
  - apply Forall_app; auto.
  - unfold h2_produced, HalfJoin2Spec.h2_input in *. cbn [h2w_out h2w_in sd_hist]. rewrite flat_map_app, answers_app_l. apply same_weights_app; auto.
  - exact L5.
  - unfold capabilities. cbn [h2_blobs]. destruct (h2_trace (h2w_op w)) as [[L P]|].
    + assert (G : forall e t, In e (F' ++ flat_map b_caps blobs) -> beyond (frontier_func e) t -> beyond (antichain_join L (ac_from (flat_map frontier_func (F' ++ flat_map b_caps blobs)))) t).
      { intros e t He Ht. apply antichain_join_beyond. split.
        - assert (Hb : beyond old e).
          { apply in_app_iff in He as [He|He]; [apply beyond_app; left; apply Hfront, beyond_in, He|]. apply L6, beyond_in, He. }
          destruct (protects_beyond frontier_func comparison HC _ _ e I7 Hb) as (HL & HP & Eh & Hs & _). inversion Eh; subst. auto.
        - apply ac_from_beyond. destruct Ht as (f & Hf & Hl). exists f. split; [|exact Hl]. apply in_flat_map. eauto. }
      destruct F' as [|f F'], blobs as [|e0 blobs]; cbn [HalfJoinP.protects]; auto.
    + cbn [HalfJoinP.protects] in *. unfold old in *. rewrite I7 in *.
      assert (flat_map b_caps blobs = []) as ->. { destruct (flat_map b_caps blobs) as [|f l]; [auto|]. destruct (beyond_nil _ (L6 f (beyond_in (f :: l) f (or_introl eq_refl)))). }
      apply app_eq_nil in I7 as [E1 E2]. rewrite E1 in Hfront.
      assert (F' = []) as ->. { destruct F' as [|f F']; [auto|]. destruct (beyond_nil _ (Hfront f (beyond_in (f :: F') f (or_introl eq_refl)))). }
      reflexivity.
  - apply Forall_app. split; [exact I8|]. eapply Forall_impl; [|exact L4]; cbv beta; tauto.
  - intros Hn. apply L7, Hn, Hys.
Qed.

Lemma h2step_inv w w' A : h2inv w A -> h2step w w' -> exists A', h2inv w' A'.
Proof.
  intros HI HS. destruct HS.
  - exists A. destruct HI as [I1 I2 I3 I4 I5 I6 I7 I8 I9]. cbn [h2w_in h2w_front h2w_asked h2w_op h2w_out] in *. pose proof (side_env_inv _ _ _ _ _ _ H I1) as HI'.
    assert (G : allowed (h2_trace h) (sd_logical s') (sd_physical s') /\ sd_front s' = sd_front s /\ exists bs, sd_hist s' = sd_hist s ++ bs /\ Forall (times_beyond contents (sd_front s)) bs).
    { destruct H; cbn [sd_logical sd_physical sd_front sd_hist] in *.
      - split; [auto|]. split; [auto|]. exists [b]. split; [auto|]. constructor; [auto|constructor].
      - split; [auto|]. split; [auto|]. exists [b]. split; [auto|]. constructor; [|constructor]. unfold times_beyond. rewrite H2. constructor.
      - split; [auto|]. split; [auto|]. exists []. rewrite app_nil_r. auto.
      - split; [auto|]. split; [auto|]. exists []. rewrite app_nil_r. auto.
      - split; [auto|]. split; [auto|]. exists []. rewrite app_nil_r. auto. }
    destruct G as (G1 & G2 & bs & G3 & G4). constructor; cbn [h2w_in h2w_front h2w_asked h2w_op h2w_out]; rewrite ?G2; auto.
    eapply same_weights_trans; [exact I5|]. unfold HalfJoin2Spec.h2_input. cbn [h2w_in]. rewrite G3, flat_map_app. apply same_weights_sym. eapply same_weights_trans; [apply answers_app_r|].
    rewrite (released_answers comparison output_func A (sd_front s) (flat_map contents bs)), app_nil_r; [apply same_weights_refl|apply (cf_earlier _ _ HC)|exact I4|].
    apply Forall_forall. intros u Hu. apply in_flat_map in Hu as (b & Hb & Hu). rewrite Forall_forall in G4. specialize (G4 b Hb). unfold times_beyond in G4. rewrite Forall_forall in G4. auto.
  - destruct (activate2_ok _ _ _ _ _ _ _ ys HI H H0 H1 H2) as (h1 & outs1 & again1 & A' & E & HI' & _). cbn [h2w_in h2w_front h2w_asked h2w_op h2w_out] in *. rewrite E in H3. inversion H3; subst. eauto.
Qed.
Lemma h2reaches_inv handle w : h2reaches handle w -> exists A, h2inv w A.
Proof.
  induction 1 as [w H|w w' _ (A & IH) H]; [exists []; eapply h2starts_inv; eauto|eapply h2step_inv; eauto].
Qed.
End World.
