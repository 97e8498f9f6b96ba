(** Merging, extracting and building with chunks of any type that obeys [ChunkLaws]. *)
From Verif Require Export Spec.ChunkSpec Proofs.PackP Proofs.ConsolidationP Proofs.BatchP Spec.ArrangeSpec Proofs.MergeBatcherP Proofs.BilinearP.
From Verif Require Import Base.Order.

(** ** Lists of updates *)
Section Lists.
Context {D T R : Type} {OD : Ord D} {TT : Time T} {DR : Diff R}.
Local Notation U := (D * T * R)%type.
Implicit Types (E X l o : list U).
Lemma keys_in o l : consolidated (A:=D*T) o -> same_weights (A:=D*T) o l -> forall x, In x o -> exists y, In y l /\ fst y = fst x.
Proof.
  intros HC HW x Hx. assert (H : In (fst x) (map fst l)).
  { destruct (in_dec (fun a b => match eqb_spec a b with ReflectT _ e => left e | ReflectF _ n => right n end) (fst x) (map fst l)) as [H|H]; auto. exfalso.
    apply weight_notin in H. rewrite <- (HW (fst x)) in H. apply (consolidated_in_weight o (fst x) HC) in H; auto. apply in_map; auto. }
  apply in_map_iff in H as (y & E & Hy). eauto.
Qed.
Lemma before_l o l X : consolidated (A:=D*T) o -> same_weights (A:=D*T) o l -> all_before l X -> all_before o X.
Proof. intros HC HW HB x y Hx Hy. destruct (keys_in o l HC HW x Hx) as (z & Hz & <-). auto. Qed.
Lemma before_r o l X : consolidated (A:=D*T) o -> same_weights (A:=D*T) o l -> all_before X l -> all_before X o.
Proof. intros HC HW HB x y Hx Hy. destruct (keys_in o l HC HW y Hy) as (z & Hz & <-). auto. Qed.
Lemma before_app_l X1 X2 X : all_before (X1 ++ X2) X <-> all_before X1 X /\ all_before X2 X.
Proof. split; [intros H; split; intros x y Hx; apply H; apply in_or_app; auto|]. intros [H1 H2] x y Hx. apply in_app_or in Hx as [Hx|Hx]; auto. Qed.
Lemma before_app_r X1 X2 X : all_before X (X1 ++ X2) <-> all_before X X1 /\ all_before X X2.
Proof. split; [intros H; split; intros x y Hx Hy; apply H; auto; apply in_or_app; auto|]. intros [H1 H2] x y Hx Hy. apply in_app_or in Hy as [Hy|Hy]; auto. Qed.
Lemma before_nil_l X : all_before [] X. Proof. intros x y []. Qed.
Lemma before_nil_r X : all_before X []. Proof. intros x y _ []. Qed.
Lemma cons_app l1 l2 : consolidated (A:=D*T) (l1 ++ l2) <-> consolidated (A:=D*T) l1 /\ consolidated (A:=D*T) l2 /\ all_before l1 l2.
Proof. apply consolidated_app. Qed.

(** A merge under way: [E] has been put out, [X1] and [X2] are left. *)
Record merge_at E X1 X2 (all : list U) : Prop := {
  mg_out : consolidated (A:=D*T) E; mg_in1 : consolidated (A:=D*T) X1; mg_in2 : consolidated (A:=D*T) X2;
  mg_1 : all_before E X1; mg_2 : all_before E X2;
  mg_same : same_weights (A:=D*T) (E ++ X1 ++ X2) all }.
Lemma merging_start X1 X2 : consolidated (A:=D*T) X1 -> consolidated (A:=D*T) X2 -> merge_at [] X1 X2 (X1 ++ X2).
Proof. intros H1 H2. constructor; auto; [apply consolidated_nil|apply before_nil_l|apply before_nil_l|apply same_weights_refl]. Qed.
Lemma merging_step E f1 X1 f2 X2 o all : merge_at E (f1 ++ X1) (f2 ++ X2) all ->
  consolidated (A:=D*T) o -> same_weights (A:=D*T) o (f1 ++ f2) -> all_before f1 X2 -> all_before f2 X1 -> merge_at (E ++ o) X1 X2 all.
Proof.
  intros [H1 H2 H3 H4 H5 H6] HC HW B1 B2. apply cons_app in H2 as (A1 & A2 & A3). apply cons_app in H3 as (C1 & C2 & C3).
  apply before_app_r in H4 as [H4 H4']. apply before_app_r in H5 as [H5 H5'].
  constructor; auto.
  - apply cons_app. split; auto. split; auto. apply (before_r o _ _ HC HW). apply before_app_r. auto.
  - apply before_app_l. split; auto. apply (before_l o _ _ HC HW). apply before_app_l. auto.
  - apply before_app_l. split; auto. apply (before_l o _ _ HC HW). apply before_app_l. auto.
  - intros a. rewrite <- (H6 a). rewrite !weight_app, (HW a), !weight_app. dperm.
Qed.
Lemma merging_end E X1 X2 all : merge_at E X1 X2 all -> X1 = [] \/ X2 = [] -> consolidated (A:=D*T) (E ++ X1 ++ X2) /\ same_weights (A:=D*T) (E ++ X1 ++ X2) all.
Proof.
  intros [H1 H2 H3 H4 H5 H6] HE. split; auto. apply cons_app. split; auto.
  destruct HE as [-> | ->]; cbn [app]; rewrite ?app_nil_r; auto.
Qed.
Lemma horizon f X more : (forall x, In x f -> exists y, In y X /\ le (A:=D*T) (fst x) (fst y)) -> all_before X more -> all_before f more.
Proof. intros H HB x y Hx Hy. destruct (H x Hx) as (z & Hz & Hle). eapply le_lt_trans; [exact Hle|]. auto. Qed.
End Lists.

Section Chunks.
Context {C D T R : Type} {OD : Ord D} {TT : Time T} {DR : Diff R}.
Local Notation U := (D * T * R)%type.
Variable ops : ChunkOps C T. Variable ok : C -> Prop. Variable rows : C -> list U. Variable laws : ChunkLaws ops ok rows.
Notation ups := (updates_of rows). Notation nonempties := (all_nonempty ok rows). Notation chain := (chain ok rows).
Notation settling := (cl_settling _ _ _ laws).
Lemma ups_app a b : ups (a ++ b) = ups a ++ ups b. Proof. apply flat_map_app. Qed.
Lemma non_app a b : nonempties (a ++ b) <-> nonempties a /\ nonempties b. Proof. apply Forall_app. Qed.
Lemma chain_split a b : chain (a ++ b) <-> chain a /\ chain b /\ all_before (ups a) (ups b).
Proof. unfold ChunkSpec.chain. rewrite non_app, ups_app, cons_app. tauto. Qed.
Lemma total_len_ok l : nonempties l -> total_len ops l = length (ups l).
Proof. unfold total_len, updates_of. induction 1 as [|c l [Hc _] _ IH]; cbn; auto. rewrite app_length, <- IH, (cl_len _ _ _ laws); auto. Qed.
Lemma ups_nil l : nonempties l -> ups l = [] -> l = [].
Proof. intros [|c l' [_ Hc] _]; auto. cbn. intros E. apply app_eq_nil in E as [E _]. congruence. Qed.

(** A call of [merge] on loaded parts of two sorted inputs. *)
Lemma merge_call in1 more1 in2 more2 E all : chain in1 -> chain in2 -> in1 <> [] -> in2 <> [] ->
  merge_at E (ups in1 ++ more1) (ups in2 ++ more2) all ->
  exists in1' in2' out, ch_merge ops in1 in2 = Some (in1', in2', out) /\ chain in1' /\ chain in2' /\ nonempties out /\
    merge_at (E ++ ups out) (ups in1' ++ more1) (ups in2' ++ more2) all /\
    length (ups out) + length (ups in1') + length (ups in2') <= length (ups in1) + length (ups in2) /\
    length in1' <= length in1 /\ length in2' <= length in2 /\ length in1' + length in2' < length in1 + length in2.
Proof.
  intros C1 C2 N1 N2 HM. destruct (cl_merge _ _ _ laws in1 in2 C1 C2 N1 N2) as (in1' & in2' & out & f1 & f2 & E1 & U1 & U2 & HC & HW & HL & B1 & B2 & Z1 & Z2 & M1 & M2 & M3 & L1 & L2 & L3).
  exists in1', in2', out. split; auto. destruct C1 as [_ C1], C2 as [_ C2].
  assert (HX : all_before f1 more2 /\ all_before f2 more1).
  { destruct HM as [_ H2 H3 _ _ _]. apply cons_app in H2 as (_ & _ & H2). apply cons_app in H3 as (_ & _ & H3). split; [eapply horizon; [exact Z1|exact H3]|eapply horizon; [exact Z2|exact H2]]. }
  destruct HX as [X1 X2]. rewrite U1, <- app_assoc, U2, <- app_assoc in HM. rewrite U1 in C1. rewrite U2 in C2. apply cons_app in C1 as (_ & C1 & _). apply cons_app in C2 as (_ & C2 & _).
  split; [split; auto|]. split; [split; auto|]. split; auto. split; [|rewrite U1, U2, !app_length; repeat split; auto; lia].
  eapply merging_step; eauto; apply before_app_r; auto.
Qed.

(** ** merge_chains *)
Lemma merge_chains_loop_ok fuel : forall in1 in2 E all, length in1 + length in2 <= fuel -> chain in1 -> chain in2 -> merge_at E (ups in1) (ups in2) all ->
  exists out, merge_chains_loop ops fuel in1 in2 = Some out /\ nonempties out /\ consolidated (A:=D*T) (E ++ ups out) /\ same_weights (A:=D*T) (E ++ ups out) all.
Proof.
  induction fuel as [|fuel IH]; intros in1 in2 E all HL C1 C2 HM; cbn [merge_chains_loop].
  all: destruct (negb (is_nil in1) && negb (is_nil in2)) eqn:Eb.
  2,4: exists (in1 ++ in2); split; auto; split; [apply non_app; split; [apply C1|apply C2]|]; rewrite ups_app; apply merging_end; auto;
    destruct in1; [left; auto|]; destruct in2; [right; auto|discriminate].
  - destruct in1; [|cbn in HL; lia]. discriminate.
  - assert (N1 : in1 <> []) by (intros ->; discriminate). assert (N2 : in2 <> []) by (intros ->; rewrite andb_false_r in Eb; discriminate).
    destruct (merge_call in1 [] in2 [] E all C1 C2 N1 N2) as (in1' & in2' & out & E1 & K1 & K2 & K3 & K4 & _ & _ & _ & K5); [rewrite !app_nil_r; auto|].
    rewrite E1. rewrite !app_nil_r in K4. destruct (IH in1' in2' (E ++ ups out) all) as (out' & E2 & Q1 & Q2 & Q3); auto; [lia|]. rewrite E2. exists (out ++ out').
    rewrite ups_app, !app_assoc. split; auto. split; [apply non_app; auto|auto].
Qed.
Lemma merge_chains_ok l1 l2 : chain l1 -> chain l2 -> exists out, merge_chains ops l1 l2 = Some out /\ chain out /\ same_weights (A:=D*T) (ups out) (ups l1 ++ ups l2).
Proof.
  intros C1 C2. destruct (merge_chains_loop_ok (length l1 + length l2) l1 l2 [] (ups l1 ++ ups l2)) as (out & E & N & HC & HW); auto.
  { apply merging_start; [apply C1|apply C2]. } exists out. split; auto. split; [split; auto|auto].
Qed.

(** ** ChunkMerger *)
Lemma cm_loop_ok fuel : forall in1 in2 staged settled all, length in1 + length in2 <= fuel -> chain in1 -> chain in2 -> settling settled staged ->
  merge_at (ups settled ++ ups staged) (ups in1) (ups in2) all ->
  exists in1' in2' staged' settled', cm_loop ops fuel in1 in2 staged settled = Some (in1', in2', staged', settled') /\
    chain in1' /\ chain in2' /\ (in1' = [] \/ in2' = []) /\ settling settled' staged' /\ merge_at (ups settled' ++ ups staged') (ups in1') (ups in2') all.
Proof.
  induction fuel as [|fuel IH]; intros in1 in2 staged settled all HL C1 C2 HS HM; cbn [cm_loop].
  all: destruct (negb (is_nil in1) && negb (is_nil in2)) eqn:Eb.
  2,4: exists in1, in2, staged, settled; do 3 (split; [auto|]); split; [|auto]; destruct in1; [left; auto|]; destruct in2; [right; auto|discriminate].
  - destruct in1; [|cbn in HL; lia]. discriminate.
  - assert (N1 : in1 <> []) by (intros ->; discriminate). assert (N2 : in2 <> []) by (intros ->; rewrite andb_false_r in Eb; discriminate).
    destruct (merge_call in1 [] in2 [] (ups settled ++ ups staged) all C1 C2 N1 N2) as (in1' & in2' & out & E1 & K1 & K2 & K3 & K4 & _ & _ & _ & K5); [rewrite !app_nil_r; auto|].
    rewrite E1. rewrite !app_nil_r in K4. destruct (cl_settle_more _ _ _ laws settled staged out HS K3) as (q & o & E2 & S2 & R2).
    { pose proof (mg_out _ _ _ _ K4) as HE. rewrite <- app_assoc in HE. apply cons_app in HE. tauto. } rewrite E2.
    apply IH; auto; [lia|]. rewrite ups_app, <- app_assoc, <- R2, app_assoc. exact K4.
Qed.
Lemma cm_tail_ok tail : forall staged settled, nonempties tail -> settling settled staged -> consolidated (A:=D*T) (ups staged ++ ups tail) ->
  exists staged' settled', cm_tail ops tail staged settled = Some (staged', settled') /\ settling settled' staged' /\ ups settled' ++ ups staged' = ups settled ++ ups staged ++ ups tail.
Proof.
  induction tail as [|c tail IH]; intros staged settled HN HS HC; cbn [cm_tail].
  - exists staged, settled. cbn. rewrite app_nil_r. auto.
  - inversion HN as [|? ? Hc HN']; subst. change (ups (c :: tail)) with (rows c ++ ups tail) in HC. rewrite app_assoc in HC.
    assert (E0 : ups [c] = rows c) by (cbn; apply app_nil_r). rewrite <- E0 in HC. pose proof HC as HC0. apply cons_app in HC0 as (HC0 & _).
    destruct (cl_settle_more _ _ _ laws settled staged [c] HS) as (q & o & E & S & R2); [constructor; auto; constructor|auto|]. rewrite E.
    rewrite R2, <- app_assoc in HC. apply cons_app in HC as (_ & HC & _).
    destruct (IH q (settled ++ o) HN' S HC) as (staged' & settled' & E2 & S2 & R3). exists staged', settled'. split; auto. split; auto. rewrite R3, ups_app, <- app_assoc. f_equal.
    rewrite app_assoc, <- R2. cbn. rewrite app_nil_r, <- app_assoc. reflexivity.
Qed.
Lemma finish out queue : settling out queue -> consolidated (A:=D*T) (ups queue) -> exists o, ch_settle ops queue true = Some ([], o) /\ ups out ++ ups queue = ups (out ++ o) /\
  graded (ch_target ops) (map (ch_len ops) (out ++ o)) /\ nonempties (out ++ o).
Proof.
  intros HS HC. destruct (cl_settle_done _ _ _ laws out queue [] HS) as (o & E & R2 & G & N); [constructor|rewrite app_nil_r; auto|]. rewrite app_nil_r in E. exists o. split; auto. split; auto.
  rewrite ups_app, <- R2. cbn. rewrite app_nil_r. reflexivity.
Qed.
Lemma cm_merge_ok l1 l2 : chain l1 -> chain l2 -> exists out, cm_merge ops l1 l2 = Some out /\ chain out /\ graded (ch_target ops) (map (ch_len ops) out) /\
  same_weights (A:=D*T) (ups out) (ups l1 ++ ups l2).
Proof.
  intros C1 C2. unfold cm_merge. destruct (cm_loop_ok (length l1 + length l2) l1 l2 [] [] (ups l1 ++ ups l2)) as (in1 & in2 & staged & settled & E1 & K1 & K2 & K3 & K4 & K5); auto.
  { apply cl_settling_nil. } { apply merging_start; [apply C1|apply C2]. } rewrite E1.
  assert (H : consolidated (A:=D*T) ((ups settled ++ ups staged) ++ ups in1 ++ ups in2) /\ same_weights (A:=D*T) ((ups settled ++ ups staged) ++ ups in1 ++ ups in2) (ups l1 ++ ups l2)).
  { apply merging_end; auto. destruct K3 as [-> | ->]; auto. }
  rewrite <- app_assoc, <- ups_app in H.
  destruct (cm_tail_ok (in1 ++ in2) staged settled) as (staged' & settled' & E2 & S2 & R2); auto. { apply non_app. split; [apply K1|apply K2]. } { destruct H as [H _]. apply cons_app in H. tauto. } rewrite E2.
  rewrite <- R2 in H. destruct (finish _ _ S2) as (o & E3 & R3 & G & N). { destruct H as [H _]. apply cons_app in H. tauto. } rewrite E3. exists (settled' ++ o). split; auto.
  rewrite R3 in H. destruct H as [H1 H2]. split; [split; auto|auto].
Qed.

Lemma cm_extract_loop_ok upper fuel : forall input frontier keep kept ship shipped, length input <= fuel -> chain input -> antichain frontier -> settling kept keep -> settling shipped ship ->
  consolidated (A:=D*T) (ups keep ++ filter (fun u => beyondb upper (time_of u)) (ups input)) ->
  consolidated (A:=D*T) (ups ship ++ filter (fun u => negb (beyondb upper (time_of u))) (ups input)) ->
  exists frontier' keep' kept' ship' shipped', cm_extract_loop ops fuel input upper frontier keep kept ship shipped = Some (frontier', keep', kept', ship', shipped') /\
    antichain frontier' /\ settling kept' keep' /\ settling shipped' ship' /\
    ups kept' ++ ups keep' = ups kept ++ ups keep ++ filter (fun u => beyondb upper (time_of u)) (ups input) /\
    ups shipped' ++ ups ship' = ups shipped ++ ups ship ++ filter (fun u => negb (beyondb upper (time_of u))) (ups input) /\
    (forall t, beyond frontier' t <-> beyond frontier t \/ beyond (map time_of (filter (fun u => beyondb upper (time_of u)) (ups input))) t).
Proof.
  induction fuel as [|fuel IH]; intros input frontier keep kept ship shipped HL HC HA HK HS CK CS; (destruct input as [|c input]; [|cbn [cm_extract_loop]]).
  1,3: exists frontier, keep, kept, ship, shipped; cbn; rewrite !app_nil_r; do 6 (split; [auto; fail|]); intros t0; split; [auto|]; intros [H|H]; auto; destruct (beyond_nil _ H).
  - cbn in HL; lia.
  - destruct (cl_extract _ _ _ laws (c :: input) upper frontier HC) as (input' & res & k & s & front & E1 & U1 & Uk & Us & A1 & B1 & N1 & N2 & N3 & L1); [discriminate|auto|]. rewrite E1.
    rewrite U1, filter_app, <- Uk, app_assoc in CK. rewrite U1, filter_app, <- Us, app_assoc in CS.
    destruct (cl_settle_more _ _ _ laws kept keep k HK N2) as (qk & okk & E2 & S2 & R2). { apply cons_app in CK. tauto. } rewrite E2.
    destruct (cl_settle_more _ _ _ laws shipped ship s HS N3) as (qs & os & E3 & S3 & R3). { apply cons_app in CS. tauto. } rewrite E3.
    rewrite R2, <- app_assoc in CK. apply cons_app in CK as (_ & CK & _). rewrite R3, <- app_assoc in CS. apply cons_app in CS as (_ & CS & _).
    assert (HC' : chain input'). { split; auto. destruct HC as [_ HC]. rewrite U1 in HC. apply cons_app in HC. tauto. }
    cbn [length] in L1, HL. destruct (IH input' res qk (kept ++ okk) qs (shipped ++ os)) as (f' & keep' & kept' & ship' & shipped' & E4 & A4 & S4 & S5 & R4 & R5 & B4); auto; [lia|].
    exists f', keep', kept', ship', shipped'. split; auto. split; auto. split; auto. split; auto. rewrite U1, !filter_app, <- Uk, <- Us. split; [|split].
    + rewrite R4, ups_app, <- !app_assoc. f_equal. rewrite !app_assoc. f_equal. symmetry. exact R2.
    + rewrite R5, ups_app, <- !app_assoc. f_equal. rewrite !app_assoc. f_equal. symmetry. exact R3.
    + intros t. rewrite B4, B1, map_app, beyond_app. tauto.
Qed.
Lemma cm_extract_ok m upper : chain m -> exists f r k, cm_extract ops m upper = Some (f, r, k) /\ chain r /\ chain k /\
  graded (ch_target ops) (map (ch_len ops) r) /\ graded (ch_target ops) (map (ch_len ops) k) /\
  antichain f /\ (forall t, beyond f t <-> beyond (map time_of (ups k)) t) /\
  ups r = filter (fun u => negb (beyondb upper (time_of u))) (ups m) /\ ups k = filter (fun u => beyondb upper (time_of u)) (ups m).
Proof.
  intros HC. unfold cm_extract. destruct (cm_extract_loop_ok upper (length m) m [] [] [] [] []) as (f & keep & kept & ship & shipped & E1 & A1 & S1 & S2 & R1 & R2 & B1); auto.
  { constructor. } { apply cl_settling_nil. } { apply cl_settling_nil. } { apply consolidated_filter, HC. } { apply consolidated_filter, HC. }
  rewrite E1. cbn [updates_of flat_map app] in R1, R2.
  assert (CK : consolidated (A:=D*T) (ups kept ++ ups keep)) by (rewrite R1; apply consolidated_filter, HC).
  assert (CS : consolidated (A:=D*T) (ups shipped ++ ups ship)) by (rewrite R2; apply consolidated_filter, HC).
  apply cons_app in CK as (_ & CK & _). apply cons_app in CS as (_ & CS & _).
  destruct (finish _ _ S1 CK) as (k & E2 & R3 & G1 & N1). rewrite E2. destruct (finish _ _ S2 CS) as (s & E3 & R4 & G2 & N2). rewrite E3.
  cbn in R1, R2. exists f, (shipped ++ s), (kept ++ k). split; auto. rewrite <- R3, <- R4, R1, R2.
  split; [split; [auto|rewrite <- R4, R2; apply consolidated_filter, HC]|]. split; [split; [auto|rewrite <- R3, R1; apply consolidated_filter, HC]|]. split; auto. split; auto. split; auto. split; [|auto].
  intros t. rewrite B1. split; auto. intros [H|H]; auto. destruct (beyond_nil _ H).
Qed.
End Chunks.
