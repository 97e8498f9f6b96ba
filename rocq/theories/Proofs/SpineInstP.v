(** The ord_neu batches satisfy the contract the spine relies on. *)
From Verif Require Import Base.Arrays Base.Collections Spec.BatchSpec Spec.BatchLaws Model.OrdNeuM
  Proofs.LatticeP Proofs.ConsolidationP Proofs.CursorP Proofs.TrieP Proofs.BatchP Proofs.DescriptionP
  Proofs.OrdNeuP Proofs.OrdKeyP Props.OrdNeuProps.

Section Val.
Context {K V T R : Type} {OK : Ord K} {OV : Ord V} {TT : Time T} {DR : Diff R} {OR : Ord R}.
Notation batch := (OrdValBatch K V T R). Notation merger := (OrdValMerger K V T R).

Definition ov_batch_ops : BatchOps batch merger T := {|
  b_desc := ov_desc; b_len := ov_updates; b_begin := ovm_new; b_work := ovm_work; b_done := fun m => Some (ovm_done m); b_empty := ov_empty |}.

(** The updates of a batch, listed from start to end. *)
Definition ov_contents (b : batch) : list (K * V * T * R) :=
  match to_vec ov_ops (ov_updates b) (ov_updates b) b ovc_new with Some vec => flat_vec vec | None => [] end.

Lemma ov_contents_holds b tr : ov_holds b tr -> ov_contents b = flat tr.
Proof.
  intros H. destruct (ov_holds_reads b tr H) as [_ HR].
  assert (E : length (flat tr) <= ov_updates b) by (rewrite (oh_len _ _ H); auto).
  destruct (HR _ _ E E) as (vec & E1 & E2). unfold ov_contents. rewrite E1. auto.
Qed.

Lemma ov_contents_reads b us : reads_as ov_ops b ovc_new us -> ov_batch b -> ov_contents b = us.
Proof.
  intros HR Hb. destruct (ov_batch_holds b Hb) as (tr & H). rewrite (ov_contents_holds b tr H).
  symmetry. exact (reads_as_unique _ _ _ _ _ HR (ov_holds_reads _ _ H)).
Qed.

Definition ov_merging (m : merger) (b1 b2 : batch) (s : list T) (r : nat) : Prop :=
  ov_batch b1 /\ ov_batch b2 /\ (spans ov_batch_ops b1 /\ spans ov_batch_ops b2 /\ same_future (upper_of ov_batch_ops b1) (lower_of ov_batch_ops b2)) /\ exists F m0 fuels, ovm_new b1 b2 F = Some m0 /\ ov_works m0 b1 b2 fuels = Some m /\
    s = d_since (ovm_desc m0) /\ r = ov_updates b1 + ov_updates b2 - tot m.

Lemma ov_works_snoc b1 b2 fuels f : forall (m m1 m2 : merger) l, ov_works m b1 b2 fuels = Some m1 -> ovm_work m1 b1 b2 f = Some (m2, l) ->
  ov_works m b1 b2 (fuels ++ [f]) = Some m2.
Proof.
  induction fuels as [|g fuels IH]; intros m m1 m2 l H1 H2; cbn [ov_works app] in *.
  - inversion H1; subst. rewrite H2. reflexivity.
  - destruct (ovm_work m b1 b2 g) as [[m' ?]|]; [|discriminate]. eapply IH; eauto.
Qed.

Definition ov_laws : BatchLaws (D:=K*V) ov_batch_ops ov_contents.
Proof.
  refine (Build_BatchLaws ov_batch_ops ov_contents ov_batch ov_merging _ _ _ _).
  - intros b Hb. destruct (ov_batch_holds b Hb) as (tr & H). rewrite (ov_contents_holds b tr H). exact (oh_len _ _ H).
  - intros lo up Hlo. unfold lower_of, upper_of, since_of. simpl. unfold ov_empty, desc_new. destruct lo as [|t lo]; [contradiction|].
    eexists. split; [reflexivity|]. split; [eapply (ovB_empty (t :: lo) up); reflexivity|]. split; [reflexivity|].
    split; [reflexivity|]. split; [reflexivity|]. intros u. exists tmin. split; [left; auto|apply tmin_le].
  - intros b1 b2 F H1 H2 S1 S2 HSF HN HF. assert (E : ac_eqb (upper_of ov_batch_ops b1) (lower_of ov_batch_ops b2) = true) by (apply ac_eqb_spec; [apply S1|apply S2|auto]).
    pose proof (conj S1 (conj S2 HSF)) as HSp. unfold lower_of, upper_of, since_of in E, HN, HF. unfold since_of. simpl in E, HN, HF |- *.
    assert (Em : exists m, ovm_new b1 b2 F = Some m /\ forall t, beyond (d_since (ovm_desc m)) t <->
              beyond (d_since (ov_desc b1)) t /\ beyond (d_since (ov_desc b2)) t /\ beyond F t).
    { unfold ovm_new. rewrite E. unfold desc_new. destruct (d_lower (ov_desc b1)) eqn:E1; [contradiction HN; auto|].
      eexists; split; [reflexivity|]. simpl. intros u.
      rewrite !(eq_refl : antichain_lattice_join _ _ = antichain_join _ _). rewrite !antichain_join_beyond. tauto. }
    destruct Em as (m & Em & Hs). exists m, (d_since (ovm_desc m)), (ov_updates b1 + ov_updates b2 - tot m).
    split; auto. split; [split; [auto|split; [auto|split; [exact HSp|exists F, m, []; auto]]]|]. split; [lia|].
    split; intros t Ht; [apply Hs in Ht; tauto|]. apply Hs. destruct (HF t Ht). auto.
  - intros m b1 b2 s r fuel (HB1 & HB2 & HSp & F & m0 & fuels & En & Ew & Es & Er). simpl.
    destruct (ov_batch_holds b1 HB1) as (tr1 & H1). destruct (ov_batch_holds b2 HB2) as (tr2 & H2).
    destruct (ov_works_ok b1 b2 tr1 tr2 (oh_src _ _ H1) (oh_src _ _ H2) fuels m0 [] (m_rep_new _ _ _ _ _ _ En)) as (m1 & o & E & HM & Hd).
    rewrite Ew in E. inversion E; subst m1.
    destruct (ovm_work_ok m b1 b2 tr1 tr2 o fuel (oh_src _ _ H1) (oh_src _ _ H2) HM) as (m2 & f' & o' & E' & HM' & Hd' & Ht & Hf & Hfin).
    pose proof (m_rep_bound _ _ _ _ HM) as Hb0. pose proof (m_rep_bound _ _ _ _ HM') as Hb.
    rewrite <- (oh_len _ _ H1), <- (oh_len _ _ H2) in Hb0, Hb.
    exists m2, f'. split; auto. split; [|split].
    + intros Hlt. subst r. lia.
    + intros Hle. exists (ov_updates b1 + ov_updates b2 - tot m2). split; [|subst r; lia].
      split; auto. split; auto. split; [exact HSp|]. exists F, m0, (fuels ++ [fuel]). split; auto. split; auto. eapply ov_works_snoc; eauto.
    + intros Hl. destruct (Hfin Hl) as [K1 K2]. pose proof (ovm_done_holds m2 b1 b2 tr1 tr2 o' H1 H2 HM' K1 K2) as HD.
      assert (ED : ovm_desc m2 = ovm_desc m0) by congruence.

      assert (Elo : d_lower (ovm_desc m0) = d_lower (ov_desc b1) /\ d_upper (ovm_desc m0) = d_upper (ov_desc b2)).
      { unfold ovm_new in En. destruct (ac_eqb _ _); [|discriminate]. unfold desc_new in En. destruct (d_lower (ov_desc b1)) eqn:El; [discriminate|].
        inversion En; subst; simpl; auto. }
      eexists. split; [reflexivity|].
      assert (HSb : spans ov_batch_ops (ovm_done m2) /\ same_future (lower_of ov_batch_ops (ovm_done m2)) (lower_of ov_batch_ops b1) /\ same_future (upper_of ov_batch_ops (ovm_done m2)) (upper_of ov_batch_ops b2)).
      { destruct HSp as ((L1 & U1 & E1) & (L2 & U2 & E2) & HSF). unfold spans, same_future, lower_of, upper_of in *. simpl in *. rewrite ED. destruct Elo as [-> ->].
        split; [|split; intros t; tauto]. split; auto. split; auto. intros t Hbt. apply E1, HSF, E2, Hbt. }
      destruct HSb as (HSb & HSl & HSu). unfold since_of. simpl. rewrite ED.
      split; [eapply (ovB_merged b1 b2 F m0 fuels m fuel m2 f'); eauto|]. split; [exact HSb|]. split; [exact HSl|]. split; [exact HSu|]. split; [auto|].
      split.
      * exact Hb.
      * rewrite (ov_contents_holds _ _ HD), (ov_contents_holds _ _ H1), (ov_contents_holds _ _ H2), ED.
        rewrite merged_flat by (apply wf_sorted; solve [apply H1|apply H2]). subst s.
        exact (proj1 (proj2 (compaction_ok (D:=K*V) (d_since (ovm_desc m0)) (flat tr1 ++ flat tr2)))).
Defined.
End Val.

Section Key.
Context {K T R : Type} {OK : Ord K} {TT : Time T} {DR : Diff R} {OR : Ord R}.
Notation batch := (OrdKeyBatch K T R). Notation merger := (OrdKeyMerger K T R).

Definition ok_batch_ops : BatchOps batch merger T := {|
  b_desc := ok_desc; b_len := ok_updates; b_begin := okm_new; b_work := okm_work; b_done := fun m => Some (okm_done m); b_empty := ok_empty |}.

Definition ok_contents (b : batch) : list (K * unit * T * R) :=
  match to_vec ok_ops (ok_updates b) (ok_updates b) b okc_new with Some vec => flat_vec vec | None => [] end.

Lemma ok_contents_holds b g : ok_holds b g -> ok_contents b = flat (kt g).
Proof.
  intros H. destruct (ok_holds_reads b g H) as [_ HR].
  assert (E : length (flat (kt g)) <= ok_updates b) by (rewrite (kh_len _ _ H); auto).
  destruct (HR _ _ E E) as (vec & E1 & E2). unfold ok_contents. rewrite E1. auto.
Qed.

Lemma ok_contents_reads b us : reads_as ok_ops b okc_new us -> ok_batch b -> ok_contents b = us.
Proof.
  intros HR Hb. destruct (ok_batch_holds b Hb) as (g & H). rewrite (ok_contents_holds b g H).
  symmetry. exact (reads_as_unique _ _ _ _ _ HR (ok_holds_reads _ _ H)).
Qed.

Definition ok_merging (m : merger) (b1 b2 : batch) (s : list T) (r : nat) : Prop :=
  ok_batch b1 /\ ok_batch b2 /\ (spans ok_batch_ops b1 /\ spans ok_batch_ops b2 /\ same_future (upper_of ok_batch_ops b1) (lower_of ok_batch_ops b2)) /\ exists F m0 fuels, okm_new b1 b2 F = Some m0 /\ ok_works m0 b1 b2 fuels = Some m /\
    s = d_since (okm_desc m0) /\ r = ok_updates b1 + ok_updates b2 - ktot m.

Lemma ok_works_snoc b1 b2 fuels f : forall (m m1 m2 : merger) l, ok_works m b1 b2 fuels = Some m1 -> okm_work m1 b1 b2 f = Some (m2, l) ->
  ok_works m b1 b2 (fuels ++ [f]) = Some m2.
Proof.
  induction fuels as [|g fuels IH]; intros m m1 m2 l H1 H2; cbn [ok_works app] in *.
  - inversion H1; subst. rewrite H2. reflexivity.
  - destruct (okm_work m b1 b2 g) as [[m' ?]|]; [|discriminate]. eapply IH; eauto.
Qed.

Definition ok_laws : BatchLaws (D:=K*unit) ok_batch_ops ok_contents.
Proof.
  refine (Build_BatchLaws ok_batch_ops ok_contents ok_batch ok_merging _ _ _ _).
  - intros b Hb. destruct (ok_batch_holds b Hb) as (g & H). rewrite (ok_contents_holds b g H). exact (kh_len _ _ H).
  - intros lo up Hlo. unfold lower_of, upper_of, since_of. simpl. unfold ok_empty, desc_new. destruct lo as [|t lo]; [contradiction|].
    eexists. split; [reflexivity|]. split; [eapply (okB_empty (t :: lo) up); reflexivity|]. split; [reflexivity|].
    split; [reflexivity|]. split; [reflexivity|]. intros u. exists tmin. split; [left; auto|apply tmin_le].
  - intros b1 b2 F H1 H2 S1 S2 HSF HN HF. assert (E : ac_eqb (upper_of ok_batch_ops b1) (lower_of ok_batch_ops b2) = true) by (apply ac_eqb_spec; [apply S1|apply S2|auto]).
    pose proof (conj S1 (conj S2 HSF)) as HSp. unfold lower_of, upper_of, since_of in E, HN, HF. unfold since_of. simpl in E, HN, HF |- *.
    assert (Em : exists m, okm_new b1 b2 F = Some m /\ forall t, beyond (d_since (okm_desc m)) t <->
              beyond (d_since (ok_desc b1)) t /\ beyond (d_since (ok_desc b2)) t /\ beyond F t).
    { unfold okm_new. rewrite E. unfold desc_new. destruct (d_lower (ok_desc b1)) eqn:E1; [contradiction HN; auto|].
      eexists; split; [reflexivity|]. simpl. intros u.
      rewrite !(eq_refl : antichain_lattice_join _ _ = antichain_join _ _). rewrite !antichain_join_beyond. tauto. }
    destruct Em as (m & Em & Hs). exists m, (d_since (okm_desc m)), (ok_updates b1 + ok_updates b2 - ktot m).
    split; auto. split; [split; [auto|split; [auto|split; [exact HSp|exists F, m, []; auto]]]|]. split; [lia|].
    split; intros t Ht; [apply Hs in Ht; tauto|]. apply Hs. destruct (HF t Ht). auto.
  - intros m b1 b2 s r fuel (HB1 & HB2 & HSp & F & m0 & fuels & En & Ew & Es & Er). simpl.
    destruct (ok_batch_holds b1 HB1) as (g1 & H1). destruct (ok_batch_holds b2 HB2) as (g2 & H2).
    destruct (ok_works_ok b1 b2 g1 g2 (kh_src _ _ H1) (kh_src _ _ H2) fuels m0 [] (km_rep_new _ _ _ _ _ _ En)) as (m1 & o & E & HM & Hd).
    rewrite Ew in E. inversion E; subst m1.
    destruct (okm_work_ok m b1 b2 g1 g2 o fuel (kh_src _ _ H1) (kh_src _ _ H2) HM) as (m2 & f' & o' & E' & HM' & Hd' & Ht & Hf & Hfin).
    pose proof (km_rep_bound _ _ _ _ HM) as Hb0. pose proof (km_rep_bound _ _ _ _ HM') as Hb.
    rewrite <- !kt_flat_length in Hb0, Hb. rewrite <- (kh_len _ _ H1), <- (kh_len _ _ H2) in Hb0, Hb.
    exists m2, f'. split; auto. split; [|split].
    + intros Hlt. subst r. lia.
    + intros Hle. exists (ok_updates b1 + ok_updates b2 - ktot m2). split; [|subst r; lia].
      split; auto. split; auto. split; [exact HSp|]. exists F, m0, (fuels ++ [fuel]). split; auto. split; auto. eapply ok_works_snoc; eauto.
    + intros Hl. destruct (Hfin Hl) as [K1 K2]. pose proof (okm_done_holds m2 b1 b2 g1 g2 o' H1 H2 HM' K1 K2) as HD.
      assert (ED : okm_desc m2 = okm_desc m0) by congruence.

      assert (Elo : d_lower (okm_desc m0) = d_lower (ok_desc b1) /\ d_upper (okm_desc m0) = d_upper (ok_desc b2)).
      { unfold okm_new in En. destruct (ac_eqb _ _); [|discriminate]. unfold desc_new in En. destruct (d_lower (ok_desc b1)) eqn:El; [discriminate|].
        inversion En; subst; simpl; auto. }
      eexists. split; [reflexivity|].
      assert (HSb : spans ok_batch_ops (okm_done m2) /\ same_future (lower_of ok_batch_ops (okm_done m2)) (lower_of ok_batch_ops b1) /\ same_future (upper_of ok_batch_ops (okm_done m2)) (upper_of ok_batch_ops b2)).
      { destruct HSp as ((L1 & U1 & E1) & (L2 & U2 & E2) & HSF). unfold spans, same_future, lower_of, upper_of in *. simpl in *. rewrite ED. destruct Elo as [-> ->].
        split; [|split; intros t; tauto]. split; auto. split; auto. intros t Hbt. apply E1, HSF, E2, Hbt. }
      destruct HSb as (HSb & HSl & HSu). unfold since_of. simpl. rewrite ED.
      split; [eapply (okB_merged b1 b2 F m0 fuels m fuel m2 f'); eauto|]. split; [exact HSb|]. split; [exact HSl|]. split; [exact HSu|]. split; [auto|].
      split.
      * exact Hb.
      * rewrite (ok_contents_holds _ _ HD), (ok_contents_holds _ _ H1), (ok_contents_holds _ _ H2).
        rewrite ED, <- compact_kt, <- mtries_kt. rewrite merged_flat by (apply wf_sorted; solve [apply H1|apply H2]). subst s.
        exact (proj1 (proj2 (compaction_ok (D:=K*unit) (d_since (okm_desc m0)) (flat (kt g1) ++ flat (kt g2))))).
Defined.
End Key.
