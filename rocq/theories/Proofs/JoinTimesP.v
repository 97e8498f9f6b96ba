(** The deferred join produces no record at a time that is not at or beyond the capability's. *)
From Verif Require Export Proofs.DeferredP.

Lemma firstn_In {A} (l : list A) : forall n x, In x (firstn n l) -> In x l.
Proof. induction l as [|a l IH]; intros [|n] x; simpl; try tauto. intros [H|H]; [left; auto|right; eauto]. Qed.
Lemma skipn_In {A} (l : list A) : forall n x, In x (skipn n l) -> In x l.
Proof. induction l as [|a l IH]; intros [|n] x; simpl; try tauto. intros H; right; eauto. Qed.

(** consolidation invents no items *)
Lemma consolidated_items {A R} {OA : Ord A} {DR : Diff R} (c l : list (A * R)) : consolidated c -> same_weights c l -> incl (map fst c) (map fst l).
Proof.
  intros [HS HZ] HW a Ha. apply in_map_iff in Ha as ([a' r] & E & Ha). simpl in E. subst a'.
  assert (Wc : weight c a = r).
  { clear HW. induction c as [|[b s] c IH]; [destruct Ha|]. change ((b, s) :: c) with ([(b, s)] ++ c). rewrite weight_app.
    apply strictly_sorted_cons_inv in HS as [HS2 HS1]. inversion HZ; subst.
    assert (Hno : forall x, ~ In x (map fst c) -> weight c x = dzero).
    { clear. intros x Hx. unfold weight. induction c as [|[y q] c IH]; simpl; auto. destruct (eqb_spec y x) as [->|N]; [destruct Hx; left; auto|].
      apply IH. intros H. apply Hx. right; auto. }
    destruct Ha as [E|Ha].
    - inversion E; subst. rewrite (Hno a), dplus_0_r.
      + unfold weight. simpl. destruct (eqb_spec a a); [simpl; apply dplus_0_r|congruence].
      + intros H. rewrite Forall_forall in HS1. apply (lt_irrefl a). auto.
    - rewrite (IH HS2 H2 Ha). unfold weight. simpl. destruct (eqb_spec b a) as [->|N]; [|apply dplus_0_l].
      exfalso. rewrite Forall_forall in HS1. apply (lt_irrefl a). apply HS1. apply in_map_iff. exists (a, r); auto. }
  assert (Hr : is_zero r = false) by (rewrite Forall_forall in HZ; apply (HZ _ Ha)).
  rewrite (HW a) in Wc. destruct (in_dec (fun x y => ltac:(destruct (eqb_spec x y); [left|right]; assumption)) a (map fst l)) as [H|H]; auto.
  exfalso. assert (W0 : weight l a = dzero).
  { clear - H. unfold weight. induction l as [|[y q] c IH]; simpl; auto. destruct (eqb_spec y a) as [->|N]; [destruct H; left; auto|].
    apply IH. intros H'. apply H. right; auto. }
  rewrite W0 in Wc. subst r. rewrite is_zero_dzero in Hr. discriminate.
Qed.
Lemma consolidate_items {A R} {OA : Ord A} {DR : Diff R} (Q : A -> Prop) (l : list (A * R)) : Forall (fun x => Q (fst x)) l -> Forall (fun x => Q (fst x)) (consolidate l).
Proof.
  intros H. pose proof (consolidated_items _ _ (consolidate_consolidated l) (consolidate_weight l)) as HI.
  apply Forall_forall. intros x Hx. assert (Hi : In (fst x) (map fst l)) by (apply HI, in_map, Hx).
  apply in_map_iff in Hi as (y & E & Hy). rewrite Forall_forall in H. rewrite <- E. apply (H y Hy).
Qed.

(** ** Edit lists loaded with a meet, and their replay *)
Section Replay.
Context {V T R : Type} {OV : Ord V} {TT : Time T} {DR : Diff R}.
Variable m : T.
Notation late := (fun td : T * R => tle m (fst td) = true).

Lemma el_push_all_late ts : forall el : EditList V T R, Forall late (el_edits el) -> Forall late (el_edits (el_push_all (Some m) el ts)).
Proof.
  unfold el_push_all. induction ts as [|td ts IH]; intros el H; simpl; auto. apply IH. simpl. apply Forall_app; split; auto. constructor; auto. apply join_ub_r.
Qed.
Lemma el_seal_late (el el' : EditList V T R) v : Forall late (el_edits el) -> el_seal el v = Some el' -> Forall late (el_edits el').
Proof.
  unfold el_seal. intros H. destruct (_ <=? _); [|discriminate]. intros E; inversion E; subst; clear E. simpl. unfold consolidate_from.
  apply Forall_app. split; [apply Forall_forall; intros x Hx; rewrite Forall_forall in H; apply H; eapply firstn_In; eauto|].
  apply (consolidate_items (fun t => tle m t = true)). apply Forall_forall; intros x Hx; rewrite Forall_forall in H; apply H; eapply skipn_In; eauto.
Qed.
Lemma el_load_late {St C K} {OK : Ord K} (ops : CursorOps St C K V T R) fuel st : forall c el c' el', Forall late (el_edits el) ->
  el_load_loop ops fuel st c (Some m) el = Some (c', el') -> Forall late (el_edits el').
Proof.
  induction fuel as [|fuel IH]; intros c el c' el' H E; cbn [el_load_loop] in E; destruct (c_get_val ops st c) as [[v|]|]; try discriminate;
    try (inversion E; subst; auto; fail).
  destruct (c_map_times ops st c) as [ts|]; [|discriminate]. destruct (el_seal _ v) as [el1|] eqn:Es; [|discriminate].
  destruct (c_step_val ops st c) as [c1|]; [|discriminate]. eapply IH; [|exact E]. eapply el_seal_late; [|exact Es]. apply el_push_all_late; auto.
Qed.
Lemma el_load_rel {St C K} {OK : Ord K} (ops : CursorOps St C K V T R) mo fuel st : forall c el c' el' gs, el_rel el gs [] ->
  el_load_loop ops fuel st c mo el = Some (c', el') -> exists us, el_map el' = Some us.
Proof.
  induction fuel as [|fuel IH]; intros c el c' el' gs H E; cbn [el_load_loop] in E; destruct (c_get_val ops st c) as [[v|]|]; try discriminate;
    try (inversion E; subst; eexists; eapply el_map_rel; eauto; fail).
  destruct (c_map_times ops st c) as [ts|]; [|discriminate]. destruct (el_seal _ v) as [el1|] eqn:Es; [|discriminate].
  destruct (c_step_val ops st c) as [c1|]; [|discriminate]. destruct (el_seal_rel _ _ _ v (el_push_all_rel mo ts _ _ _ H)) as (el2 & Es2 & H2).
  rewrite Es in Es2. inversion Es2; subst. eapply IH; [exact H2|exact E].
Qed.
Lemma el_map_late (el : EditList V T R) us : Forall late (el_edits el) -> el_map el = Some us -> Forall (fun u => tle m (snd (fst u)) = true) us.
Proof.
  intros H. unfold el_map. destruct (mapM _ _) as [uss|] eqn:E; [|discriminate]. intros E'; inversion E'; subst; clear E'.
  apply mapM_Forall2 in E. apply Forall_concat. induction E as [|i us' is uss Hi _ IH]; constructor; auto.
  destruct (el_bounds el i) as [[lo up]|]; [|discriminate]. destruct (get (el_values el) i) as [x|]; [|discriminate].
  apply mapM_Forall2 in Hi. clear - H Hi. induction Hi as [|e u es us He _ IH]; constructor; auto.
  destruct (get (el_edits el) e) as [td|] eqn:G; [|discriminate]. inversion He; subst. simpl. rewrite Forall_forall in H. apply H. eapply nth_error_In; eauto.
Qed.
Definition vlate (h : ValueHistory V T R) (rest : list (V * T * R)) : Prop :=
  Forall (fun u => tle m (snd (fst u)) = true) rest /\ Forall (fun u => tle m (snd (fst u)) = true) (vh_buffer h).
Lemma advance_late h m' rest : vlate h rest -> vlate (vh_advance_buffer_by h m') rest.
Proof.
  intros [H1 H2]. split; auto. simpl. apply (consolidate_items (fun a : V * T => tle m (snd a) = true)). rewrite Forall_map.
  eapply Forall_impl; [|exact H2]. intros u Hu. simpl. eapply tle_trans; [exact Hu|apply join_ub_l].
Qed.
End Replay.

Section Think.
Context {V1 V2 T R1 R2 : Type} {OV1 : Ord V1} {OV2 : Ord V2} {TT : Time T} {D1 : Diff R1} {D2 : Diff R2}.
Variable m : T.
Notation call := (V1 * V2 * T * R1 * R2)%type.
Notation later := (fun c : call => tle m (snd (fst (fst c))) = true).
Lemma emit1_late (u : V1 * T * R1) (us : list (V2 * T * R2)) : tle m (snd (fst u)) = true \/ Forall (fun u => tle m (snd (fst u)) = true) us -> Forall later (emit1 u us).
Proof.
  intros H. unfold emit1. rewrite Forall_map. apply Forall_forall. intros x Hx. simpl. destruct H as [H|H].
  - eapply tle_trans; [exact H|apply join_ub_l].
  - rewrite Forall_forall in H. eapply tle_trans; [exact (H _ Hx)|apply join_ub_r].
Qed.
Lemma emit2_late (u : V2 * T * R2) (us : list (V1 * T * R1)) : tle m (snd (fst u)) = true \/ Forall (fun u => tle m (snd (fst u)) = true) us -> Forall later (emit2 u us).
Proof.
  intros H. unfold emit2. rewrite Forall_map. apply Forall_forall. intros x Hx. simpl. destruct H as [H|H].
  - eapply tle_trans; [exact H|apply join_ub_r].
  - rewrite Forall_forall in H. eapply tle_trans; [exact (H _ Hx)|apply join_ub_l].
Qed.

Lemma wave1_late (h1 : ValueHistory V1 T R1) (h2 : ValueHistory V2 T R2) u1 rest1 rest2 h1' h2' o :
  replays h1 (u1 :: rest1) -> replays h2 rest2 -> vlate m h1 (u1 :: rest1) \/ vlate m h2 rest2 -> wave1 h1 h2 = Some (h1', h2', o) ->
  Forall later o /\ replays h1' rest1 /\ replays h2' rest2 /\ (vlate m h1' rest1 \/ vlate m h2' rest2).
Proof.
  intros P1 P2 H. unfold wave1. destruct (vh_meet h1) as [m'|]; [|discriminate]. rewrite (replays_edit _ _ P1). cbn [hd_error].
  destruct (replays_step _ _ _ P1) as (h1a & E1 & Eb & _ & P1a). rewrite E1. intros E; inversion E; subst; clear E.
  assert (H2 : vlate m h1 (u1 :: rest1) \/ vlate m (vh_advance_buffer_by h2 m') rest2) by (destruct H; auto using advance_late).
  split; [|split; [auto|split; [apply replays_advance; auto|]]].
  - apply emit1_late. destruct H2 as [[Hf _]|[_ Hb]]; [left; inversion Hf; auto|right; auto].
  - destruct H2 as [[Hf Hb]|H2]; [left|right; auto]. inversion Hf; subst. split; auto. rewrite Eb. apply Forall_app; auto.
Qed.
Lemma wave2_late (h1 : ValueHistory V1 T R1) (h2 : ValueHistory V2 T R2) u2 rest1 rest2 h1' h2' o :
  replays h1 rest1 -> replays h2 (u2 :: rest2) -> vlate m h1 rest1 \/ vlate m h2 (u2 :: rest2) -> wave2 h1 h2 = Some (h1', h2', o) ->
  Forall later o /\ replays h1' rest1 /\ replays h2' rest2 /\ (vlate m h1' rest1 \/ vlate m h2' rest2).
Proof.
  intros P1 P2 H. unfold wave2. destruct (vh_meet h2) as [m'|]; [|discriminate]. rewrite (replays_edit _ _ P2). cbn [hd_error].
  destruct (replays_step _ _ _ P2) as (h2a & E1 & Eb & _ & P2a). rewrite E1. intros E; inversion E; subst; clear E.
  assert (H2 : vlate m (vh_advance_buffer_by h1 m') rest1 \/ vlate m h2 (u2 :: rest2))
    by (destruct H as [H|H]; [left; apply advance_late; exact H|right; exact H]).
  split; [|split; [apply replays_advance; auto|split; [auto|]]].
  - apply emit2_late. destruct H2 as [[_ Hb]|[Hf _]]; [right; auto|left; inversion Hf; auto].
  - destruct H2 as [H2|[Hf Hb]]; [left; auto|right]. inversion Hf; subst. split; auto. rewrite Eb. apply Forall_app; auto.
Qed.
Lemma wave_late : forall fuel (h1 : ValueHistory V1 T R1) (h2 : ValueHistory V2 T R2) rest1 rest2 calls,
  replays h1 rest1 -> replays h2 rest2 -> vlate m h1 rest1 \/ vlate m h2 rest2 -> wave fuel h1 h2 = Some calls -> Forall later calls.
Proof.
  induction fuel as [|fuel IH]; intros h1 h2 rest1 rest2 calls P1 P2 HL E; cbn [wave] in E; rewrite (replays_time _ _ P1), (replays_time _ _ P2) in E;
    destruct rest1 as [|u1 rest1], rest2 as [|u2 rest2]; cbn [hd_error option_map] in E; try discriminate; try (inversion E; subst; constructor).
  - destruct (wave2 h1 h2) as [[[h1' h2'] o]|] eqn:W; [|discriminate]. destruct (wave fuel h1' h2') as [r|] eqn:Er; [|discriminate]. inversion E; subst.
    destruct (wave2_late _ _ _ _ _ _ _ _ P1 P2 HL W) as (Ho & Q1 & Q2 & HL'). apply Forall_app; split; auto. eapply IH; [exact Q1|exact Q2|auto|exact Er].
  - destruct (wave1 h1 h2) as [[[h1' h2'] o]|] eqn:W; [|discriminate]. destruct (wave fuel h1' h2') as [r|] eqn:Er; [|discriminate]. inversion E; subst.
    destruct (wave1_late _ _ _ _ _ _ _ _ P1 P2 HL W) as (Ho & Q1 & Q2 & HL'). apply Forall_app; split; auto. eapply IH; [exact Q1|exact Q2|auto|exact Er].
  - destruct (ltb _ _).
    + destruct (wave1 h1 h2) as [[[h1' h2'] o]|] eqn:W; [|discriminate]. destruct (wave fuel h1' h2') as [r|] eqn:Er; [|discriminate]. inversion E; subst.
      destruct (wave1_late _ _ _ _ _ _ _ _ P1 P2 HL W) as (Ho & Q1 & Q2 & HL'). apply Forall_app; split; auto. eapply IH; [exact Q1|exact Q2|auto|exact Er].
    + destruct (wave2 h1 h2) as [[[h1' h2'] o]|] eqn:W; [|discriminate]. destruct (wave fuel h1' h2') as [r|] eqn:Er; [|discriminate]. inversion E; subst.
      destruct (wave2_late _ _ _ _ _ _ _ _ P1 P2 HL W) as (Ho & Q1 & Q2 & HL'). apply Forall_app; split; auto. eapply IH; [exact Q1|exact Q2|auto|exact Er].
Qed.
Lemma think_late (el1 : EditList V1 T R1) (el2 : EditList V2 T R2) us1 us2 calls : el_map el1 = Some us1 -> el_map el2 = Some us2 ->
  Forall (fun u => tle m (snd (fst u)) = true) us1 \/ Forall (fun u => tle m (snd (fst u)) = true) us2 ->
  think el1 el2 = Some calls -> Forall later calls.
Proof.
  intros M1 M2 H. unfold think. destruct (_ || _).
  - rewrite M1, M2, mapM_total. intros E; inversion E; subst. apply Forall_concat. rewrite Forall_map. apply Forall_forall. intros u Hu. apply emit1_late.
    destruct H as [H|H]; [left; rewrite Forall_forall in H; auto|right; auto].
  - destruct (vh_build_ok _ _ M1) as (h1 & us1' & E1 & B1 & _ & P1 & R1'). destruct (vh_build_ok _ _ M2) as (h2 & us2' & E2 & B2 & _ & P2 & R2').
    rewrite E1, E2. apply (wave_late _ h1 h2 us1' us2'); auto. unfold vlate. rewrite B1, B2.
    destruct H as [H|H]; [left|right]; split; auto; (eapply Permutation_Forall; [apply Permutation_sym; eassumption|auto]).
Qed.
End Think.

(** ** The builder *)
Section Builder.
Context {D T R : Type} {OD : Ord D} {TT : Time T} {DR : Diff R}.
Variable p : nat. Variable alloc : nat -> nat.
Variable Q : D * T -> Prop.
Notation U := (D * T * R)%type.
Notation fine := (Forall (fun u : U => Q (fst u))).
Definition bfine (b : ccb (A:=D*T) (R:=R)) : Prop := fine (ccb_current b) /\ Forall fine (ccb_outbound b).

Lemma Forall_firstn {A} (P : A -> Prop) n l : Forall P l -> Forall P (firstn n l).
Proof. intros H. apply Forall_forall. intros x Hx. rewrite Forall_forall in H. apply H. eapply firstn_In; eauto. Qed.
Lemma Forall_skipn {A} (P : A -> Prop) n l : Forall P l -> Forall P (skipn n l).
Proof. intros H. apply Forall_forall. intros x Hx. rewrite Forall_forall in H. apply H. eapply skipn_In; eauto. Qed.

Lemma drain_fine : forall fuel (dr : list U) empty outbound e' o', fine dr -> Forall fine outbound -> ccb_drain fuel p dr empty outbound = Some (e', o') -> Forall fine o'.
Proof.
  induction fuel as [|fuel IH]; intros dr empty outbound e' o' Hd Ho E; destruct dr as [|x dr]; cbn [ccb_drain] in E; try discriminate; try (inversion E; subst; auto; fail).
  eapply IH; [| |exact E]; [apply Forall_skipn; auto|]. apply Forall_app; split; auto. constructor; auto. simpl. apply Forall_firstn; auto.
Qed.
Lemma flush_fine mult b b' : bfine b -> ccb_flush_through p mult b = Some b' -> bfine b'.
Proof.
  intros [Hc Ho]. unfold ccb_flush_through. set (cs := consolidate (ccb_current b)). assert (Hcs : fine cs) by (apply (consolidate_items Q); auto).
  destruct (ccb_drain _ _ _ _ _) as [[e' o']|] eqn:E; [|discriminate]. intros E'; inversion E'; subst. split; simpl; [apply Forall_skipn; auto|].
  eapply drain_fine; [| |exact E]; auto. apply Forall_firstn; auto.
Qed.
Lemma push_fine u b b' : bfine b -> Q (fst u) -> ccb_push p alloc u b = Some b' -> bfine b'.
Proof.
  intros [Hc Ho] Hu. unfold ccb_push. destruct (_ =? _); intros E.
  - eapply flush_fine; [|exact E]. split; simpl; auto. apply Forall_app; auto.
  - inversion E; subst. split; simpl; auto. apply Forall_app; auto.
Qed.
Lemma push_all_fine us : forall b b', bfine b -> fine us -> push_all p alloc us b = Some b' -> bfine b'.
Proof.
  induction us as [|u us IH]; intros b b' Hb Hu E; cbn [push_all] in E; [inversion E; subst; auto|]. inversion Hu as [|? ? Hu1 Hu2]; subst.
  destruct (ccb_push p alloc u b) as [b1|] eqn:E1; [|discriminate]. eapply IH; [|exact Hu2|exact E]. eapply push_fine; [exact Hb|exact Hu1|exact E1].
Qed.
Lemma extract_fine b b' o : bfine b -> ccb_extract b = (b', o) -> bfine b' /\ Forall fine (out_list o).
Proof.
  intros [Hc Ho]. unfold ccb_extract. destruct (ccb_outbound b) as [|c ob] eqn:Eo; intros E; inversion E; subst; clear E.
  - split; [split; auto; rewrite Eo; auto|constructor].
  - inversion Ho; subst. split; [split; auto|constructor; auto].
Qed.
Lemma extract_all_fine : forall fuel b ready b' ready', bfine b -> Forall fine ready -> extract_loop p alloc fuel b ready = Some (b', ready') -> bfine b' /\ Forall fine ready'.
Proof.
  induction fuel as [|fuel IH]; intros b ready b' ready' Hb Hr E; cbn [extract_loop] in E; destruct (ccb_extract b) as [b1 o] eqn:Ee;
    destruct (extract_fine _ _ _ Hb Ee) as [Hb1 Ho]; destruct o as [c|]; try discriminate; try (inversion E; subst; auto; fail).
  cbn [ccb_step] in E. eapply IH; [| |exact E].
  - exact Hb1.
  - apply Forall_app; split; auto.
Qed.
Lemma finish_all_fine : forall fuel b ready b' ready', bfine b -> Forall fine ready -> finish_loop p alloc fuel b ready = Some (b', ready') -> bfine b' /\ Forall fine ready'.
Proof.
  assert (HF : forall b b1 o, bfine b -> ccb_finish p b = Some (b1, o) -> bfine b1 /\ Forall fine (out_list o)).
  { intros b b1 o Hb. unfold ccb_finish. destruct (ccb_current b) as [|x cu] eqn:Ec; intros E.
    - inversion E. eapply extract_fine; eauto.
    - destruct (ccb_flush_through p 1 b) as [b2|] eqn:Ef; [|discriminate]. inversion E as [E']. pose proof (flush_fine _ _ _ Hb Ef) as [H1 H2].
      eapply extract_fine; [|exact E']. split; auto. }
  induction fuel as [|fuel IH]; intros b ready b' ready' Hb Hr E; cbn [finish_loop] in E; destruct (ccb_finish p b) as [[b1 o]|] eqn:Ee; try discriminate;
    destruct (HF _ _ _ Hb Ee) as [Hb1 Ho]; destruct o as [c|]; try discriminate; try (inversion E; subst; auto; fail).
  cbn [ccb_step] in E. eapply IH; [| |exact E].
  - exact Hb1.
  - apply Forall_app; split; auto.
Qed.
End Builder.

(** ** The iterator *)
Section Iterator.
Context {St1 C1 St2 C2 K V1 V2 D T R1 R2 R3 : Type} {OK : Ord K} {OV1 : Ord V1} {OV2 : Ord V2} {OD : Ord D} {TT : Time T}
  {D1 : Diff R1} {D2 : Diff R2} {D3 : Diff R3} {MU : Multiply R1 R2 R3}.
Variable ops1 : CursorOps St1 C1 K V1 T R1.
Variable ops2 : CursorOps St2 C2 K V2 T R2.
Variable result : K -> V1 -> V2 -> list D.
Variable p : nat. Variable alloc : nat -> nat.
Variable m : T.
Notation Q := (fun a : D * T => tle m (snd a) = true).
Notation fine := (Forall (fun u : D * T * R3 => Q (fst u))).
Notation DI := (DeferredIter St1 C1 St2 C2 D T R3).

Definition dfine (d : DI) : Prop := di_meet d = m /\ (di_advance1 d = true \/ di_advance2 d = true) /\ bfine Q (di_builder d) /\ Forall fine (di_ready d).
Lemma logic_late key (calls : list (V1 * V2 * T * R1 * R2)) : Forall (fun c => tle m (snd (fst (fst c))) = true) calls -> fine (flat_map (logic (MU:=MU) result key) calls).
Proof.
  induction 1 as [|[[[[v1 v2] t] r1] r2] calls Hc _ IH]; simpl; [constructor|]. apply Forall_app; split; auto. simpl in Hc.
  rewrite Forall_map. apply Forall_forall. intros d _. exact Hc.
Qed.
Lemma di_loop_fine vfuel : forall fuel d d' x, dfine d ->
  di_loop ops1 ops2 result p alloc fuel vfuel (if di_advance1 d then Some (di_meet d) else None) (if di_advance2 d then Some (di_meet d) else None) d = Some (d', x) -> dfine d'.
Proof.
  induction fuel as [|fuel IH]; intros d d' x HD E; cbn [di_loop] in E; destruct (di_ready d) as [|rc rs] eqn:Er; try (inversion E; subst; auto; fail);
    destruct (c_get_key ops1 _ _) as [[k1|]|]; try discriminate; destruct (c_get_key ops2 _ _) as [[k2|]|]; try discriminate; try (inversion E; subst; auto; fail).
  destruct HD as (Em & Ha & Hb & Hr). destruct (cmp k1 k2).
  - destruct (el_load ops1 _ _ _ _) as [[c1 el1]|] eqn:L1; [|discriminate]. destruct (el_load ops2 _ _ _ _) as [[c2 el2]|] eqn:L2; [|discriminate].
    destruct (think el1 el2) as [calls|] eqn:Et; [|discriminate]. destruct (push_all _ _ _ _) as [b|] eqn:Ep; [|discriminate].
    destruct (c_step_key ops1 _ c1) as [c1'|]; [|discriminate]. destruct (c_step_key ops2 _ c2) as [c2'|]; [|discriminate].
    destruct (extract_all _ _ _ _) as [[b' ready]|] eqn:Ex; [|discriminate].
    assert (HL : Forall (fun c : V1 * V2 * T * R1 * R2 => tle m (snd (fst (fst c))) = true) calls).
    { destruct (el_load_rel _ _ _ _ _ _ _ _ _ el_new_rel L1) as (us1 & M1). destruct (el_load_rel _ _ _ _ _ _ _ _ _ el_new_rel L2) as (us2 & M2).
      apply (think_late m el1 el2 us1 us2); auto. destruct Ha as [Ha|Ha]; rewrite Ha, Em in *; [left|right].
      - eapply el_map_late; [|exact M1]. unfold el_load in L1. refine (el_load_late m ops1 _ _ _ _ _ _ _ L1). constructor.
      - eapply el_map_late; [|exact M2]. unfold el_load in L2. refine (el_load_late m ops2 _ _ _ _ _ _ _ L2). constructor. }
    assert (Hb1 : bfine Q b) by (eapply push_all_fine; [exact Hb|apply logic_late; exact HL|exact Ep]).
    destruct (extract_all_fine p alloc Q _ _ _ _ _ Hb1 (Forall_nil _) Ex) as [Hb2 Hr2].
    eapply (IH (Build_DeferredIter c1' (di_storage1 d) c2' (di_storage2 d) (di_meet d) (di_advance1 d) (di_advance2 d) b' ready (di_done d))); [|exact E].
    repeat split; simpl; auto; apply Hb2.
  - destruct (c_seek_key ops1 _ _ _) as [c1|]; [|discriminate].
    eapply (IH (Build_DeferredIter c1 (di_storage1 d) (di_cursor2 d) (di_storage2 d) (di_meet d) (di_advance1 d) (di_advance2 d) (di_builder d) [] (di_done d))); [|exact E].
    repeat split; simpl; auto; apply Hb.
  - destruct (c_seek_key ops2 _ _ _) as [c2|]; [|discriminate].
    eapply (IH (Build_DeferredIter (di_cursor1 d) (di_storage1 d) c2 (di_storage2 d) (di_meet d) (di_advance1 d) (di_advance2 d) (di_builder d) [] (di_done d))); [|exact E].
    repeat split; simpl; auto; apply Hb.
Qed.
Lemma di_pop_fine (d d' : DI) o : dfine d -> di_pop d = (d', o) -> dfine d' /\ Forall fine (out_list o).
Proof.
  intros (Em & Ha & Hb & Hr). unfold di_pop. destruct (di_ready d) as [|c rs] eqn:Er; intros E; inversion E; subst; clear E.
  - split; [split; [auto|]; split; [auto|]; split; [auto|rewrite Er; auto]|constructor].
  - inversion Hr; subst. split; [split; [auto|]; split; [auto|]; split; auto|constructor; auto].
Qed.
Lemma di_next_fine fuel vfuel (d d' : DI) o : dfine d -> di_next ops1 ops2 result p alloc fuel vfuel d = Some (d', o) -> dfine d' /\ Forall fine (out_list o).
Proof.
  intros HD. unfold di_next. destruct (di_ready d) as [|c rs] eqn:Er.
  2:{ intros E. inversion E. eapply di_pop_fine; eauto. }
  destruct (di_done d); [intros E; inversion E; subst; split; auto; constructor|].
  destruct (di_loop _ _ _ _ _ _ _ _ _ d) as [[d1 x]|] eqn:El; [|discriminate]. pose proof (di_loop_fine _ _ _ _ _ HD El) as H1. destruct x.
  - destruct (finish_all _ _ _ _) as [[b ready]|] eqn:Ef; [|discriminate]. intros E. inversion E as [E']. eapply di_pop_fine; [|exact E'].
    destruct H1 as (Em & Ha & Hb & Hr). destruct (finish_all_fine p alloc Q _ _ _ _ _ Hb Hr Ef) as [Hb2 Hr2]. split; [auto|]. split; [auto|]. split; auto.
  - intros E. inversion E as [E']. eapply di_pop_fine; eauto.
Qed.
Lemma yields_fine fuel vfuel (d : DI) cs : yields ops1 ops2 result p alloc vfuel fuel d cs -> dfine d -> Forall fine cs.
Proof.
  induction 1 as [|d d' c cs E _ IH]; intros HD; [constructor|]. destruct (di_next_fine _ _ _ _ _ HD E) as [H1 H2]. inversion H2; subst. constructor; auto.
Qed.
Lemma di_prep_fine (c1 : C1) (st1 : St1) (c2 : C2) (st2 : St2) fresh0 : dfine (di_prep c1 st1 c2 st2 fresh0 m).
Proof. split; [auto|]. split; [simpl; destruct fresh0; auto|]. split; [split; constructor|constructor]. Qed.
End Iterator.
