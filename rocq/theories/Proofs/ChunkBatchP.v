(** Batches of chunks: the resumable merge, the builder, and what the trace asks of batches. *)
From Verif Require Export Proofs.ChunkP Spec.BatchLaws Spec.BatchSpec Proofs.DescriptionP.
From Verif Require Import Base.Order.

Section Lists.
Context {D T R : Type} {OD : Ord D} {TT : Time T} {DR : Diff R}.
Local Notation U := (D * T * R)%type.
Implicit Types (A F P X l o M : list U).
Lemma data_le (x y : U) : lt (A:=D*T) (fst x) (fst y) -> le (fst (fst x)) (fst (fst y)).
Proof. destruct x as [[a t] r], y as [[b s] q]. cbn. intros H. apply lt_pair in H as [H|[-> _]]; [apply lt_le; auto|apply le_refl]. Qed.
Lemma data_lt (x y : U) : lt (fst (fst x)) (fst (fst y)) -> lt (A:=D*T) (fst x) (fst y).
Proof. destruct x as [[a t] r], y as [[b s] q]. cbn. intros H. apply lt_pair. auto. Qed.
Lemma data_before_ext F M P : data_before F M -> F = [] \/ M <> [] -> all_before M P -> data_before F (M ++ P).
Proof.
  intros H1 [->|H2] H3 x y Hx Hy; [destruct Hx|]. apply in_app_or in Hy as [Hy|Hy]; auto. destruct M as [|m M]; [congruence|].
  eapply lt_le_trans; [apply (H1 x m Hx); left; auto|]. apply data_le, H3; auto. left; auto.
Qed.
Lemma same_weights_adv F us vs : forall G, same_weights (A:=D*T) us vs -> same_weights (A:=D*T) (map (adv_time (D:=D) (R:=R) G) us) (map (adv_time G) vs).
Proof. intros G H. exact (map_same_weights (A:=D*T) (fun a => (fst a, advance_by (snd a) G)) us vs H). Qed.
(** Output for data that comes after all data so far. *)
Lemma advanced_before A o F P G : consolidated (A:=D*T) A -> consolidated (A:=D*T) o -> same_weights (A:=D*T) A (map (adv_time G) F) -> same_weights (A:=D*T) o (map (adv_time G) P) ->
  data_before F P -> all_before A o.
Proof.
  intros HA Ho WA Wo HB x y Hx Hy. destruct (keys_in _ _ HA WA x Hx) as (x' & Hx' & Ex). destruct (keys_in _ _ Ho Wo y Hy) as (y' & Hy' & Ey).
  apply in_map_iff in Hx' as (u & <- & Hu). apply in_map_iff in Hy' as (v & <- & Hv). apply data_lt. rewrite <- Ex, <- Ey. cbn. auto.
Qed.
End Lists.

Section Chunks.
Context {C D T R : Type} {OD : Ord D} {TT : Time T} {DR : Diff R}.
Local Notation U := (D * T * R)%type.
Variable ops : ChunkOps C T. Variable ok : C -> Prop. Variable rows : C -> list U. Variable laws : ChunkLaws ops ok rows.
Notation ups := (updates_of rows). Notation nonempties := (all_nonempty ok rows). Notation chain := (chain ok rows).
Notation settling := (cl_settling _ _ _ laws). Notation graded' l := (graded (ch_target ops) (map (ch_len ops) l)).
Notation batch := (ChunkBatch C T). Notation merger := (ChunkBatchMerger C T).
Definition cb_contents (b : batch) : list U := ups (cb_chunks b).
Definition cb_ok (b : batch) : Prop := chain (cb_chunks b) /\ graded' (cb_chunks b).

Lemma cb_new_ok l d : nonempties l -> cb_new ops l d = Some {| cb_chunks := l; cb_desc := d |}.
Proof.
  intros H. unfold cb_new. assert (E : forallb (fun c => 0 <? ch_len ops c) l = true); [|rewrite E; auto]. apply forallb_forall. intros c Hc. apply Nat.ltb_lt.
  unfold all_nonempty in H. rewrite Forall_forall in H. specialize (H c Hc) as [Hk H]. rewrite (cl_len _ _ _ laws) by auto. destruct (rows c); [congruence|cbn; lia].
Qed.

(** ** The merge *)
Record under_way (m : merger) (b1 b2 : batch) (F : list T) (r : nat) (Fr : list U) (more1 more2 : list C) : Prop := {
  uw_frontier : cbm_frontier m = F;
  uw_lower : cbm_lower m = antichain_meet (d_lower (cb_desc b1)) (d_lower (cb_desc b2));
  uw_upper : cbm_upper m = antichain_join (d_upper (cb_desc b1)) (d_upper (cb_desc b2));
  uw_complete : cbm_complete m = false;
  uw_more1 : more1 = skipn (cbm_idx1 m) (cb_chunks b1); uw_more2 : more2 = skipn (cbm_idx2 m) (cb_chunks b2);
  uw_in1 : chain (cbm_in1 m ++ more1); uw_in2 : chain (cbm_in2 m ++ more2);
  uw_merged : nonempties (cbm_merged m);
  uw_merge : merge_at (Fr ++ ups (cbm_merged m)) (ups (cbm_in1 m ++ more1)) (ups (cbm_in2 m ++ more2)) (cb_contents b1 ++ cb_contents b2);
  uw_data : data_before Fr (ups (cbm_merged m)); uw_hold : Fr = [] \/ cbm_merged m <> [];
  uw_settling : settling (cbm_settled m) (cbm_advanced m);
  uw_out : consolidated (A:=D*T) (ups (cbm_settled m) ++ ups (cbm_advanced m));
  uw_same : same_weights (A:=D*T) (ups (cbm_settled m) ++ ups (cbm_advanced m)) (map (adv_time F) Fr);
  uw_len : length (ups (cbm_settled m) ++ ups (cbm_advanced m)) <= length Fr;
  uw_total : length (Fr ++ ups (cbm_merged m)) + length (ups (cbm_in1 m ++ more1)) + length (ups (cbm_in2 m ++ more2)) <= length (cb_contents b1) + length (cb_contents b2);
  uw_left : r = length (ups (cbm_in1 m ++ more1)) + length (ups (cbm_in2 m ++ more2))
}.
(** What the finished merge is. *)
Definition finished (m : merger) (b1 b2 : batch) (F : list T) : Prop :=
  cbm_frontier m = F /\ cbm_lower m = antichain_meet (d_lower (cb_desc b1)) (d_lower (cb_desc b2)) /\
  cbm_upper m = antichain_join (d_upper (cb_desc b1)) (d_upper (cb_desc b2)) /\ cbm_complete m = true /\
  chain (cbm_settled m) /\ graded' (cbm_settled m) /\ ups (cbm_settled m) = consolidate (A:=D*T) (map (adv_time F) (cb_contents b1 ++ cb_contents b2)) /\
  length (ups (cbm_settled m)) <= length (cb_contents b1) + length (cb_contents b2).

Lemma refill_ok (input : list C) idx (chunks more : list C) : more = skipn idx chunks ->
  exists loaded more', cbm_refill input idx chunks = (input ++ loaded, idx + length loaded) /\ more = loaded ++ more' /\ more' = skipn (idx + length loaded) chunks /\
    (input ++ loaded = [] -> more' = []).
Proof.
  intros ->. unfold cbm_refill. set (n := burst - length input). exists (firstn n (skipn idx chunks)), (skipn n (skipn idx chunks)). split; auto. split; [symmetry; apply firstn_skipn|].
  assert (HS : forall a b (l : list C), skipn a (skipn b l) = skipn (b + a) l). { clear. intros a b. induction b as [|b IH]; intros l; cbn; auto. destruct l; [rewrite skipn_nil; auto|]. apply IH. }
  split.
  - rewrite firstn_length, HS. destruct (Nat.le_gt_cases n (length (skipn idx chunks))) as [H|H]; [rewrite Nat.min_l by auto; auto|].
    rewrite Nat.min_r by lia. rewrite skipn_length in *. rewrite !skipn_all2 by lia. auto.
  - intros E. apply app_eq_nil in E as [-> E]. unfold n in *. cbn in *. destruct (skipn idx chunks); [auto|discriminate].
Qed.
Lemma length_pos_ne {X} (l : list X) : l <> [] -> 0 < length l. Proof. destruct l; cbn; [congruence|lia]. Qed.

(** a round that produces [produced] *)
Lemma round_ok m b1 b2 F r Fr more1 more2 in1 in2 idx1 idx2 produced more1' more2' :
  under_way m b1 b2 F r Fr more1 more2 ->
  more1' = skipn idx1 (cb_chunks b1) -> more2' = skipn idx2 (cb_chunks b2) ->
  chain (in1 ++ more1') -> chain (in2 ++ more2') -> nonempties produced ->
  merge_at ((Fr ++ ups (cbm_merged m)) ++ ups produced) (ups (in1 ++ more1')) (ups (in2 ++ more2')) (cb_contents b1 ++ cb_contents b2) ->
  length (ups produced) + length (ups (in1 ++ more1')) + length (ups (in2 ++ more2')) <= r ->
  exists merged out advanced o, ch_advance ops (cbm_merged m ++ produced) (cbm_frontier m) false = Some (merged, out) /\
    ch_settle ops (cbm_advanced m ++ out) false = Some (advanced, o) /\
    exists Fr', under_way {| cbm_frontier := cbm_frontier m; cbm_lower := cbm_lower m; cbm_upper := cbm_upper m; cbm_in1 := in1; cbm_in2 := in2;
       cbm_idx1 := idx1; cbm_idx2 := idx2; cbm_merged := merged; cbm_advanced := advanced; cbm_settled := cbm_settled m ++ o; cbm_complete := false |}
       b1 b2 F (length (ups (in1 ++ more1')) + length (ups (in2 ++ more2'))) Fr' more1' more2'.
Proof.
  intros [H1 H2 H3 H4 H5 H6 H7 H8 H9 H10 H11 H12 H13 H14 H15 H16 H17 H18] M1 M2 C1 C2 NP HM HL.
  assert (HC : chain (cbm_merged m ++ produced)).
  { split; [apply non_app; auto|]. rewrite ups_app. pose proof (mg_out _ _ _ _ HM) as Hc. rewrite <- app_assoc in Hc. apply cons_app in Hc. tauto. }
  assert (HB : all_before (ups (cbm_merged m)) (ups produced)). { destruct HC as [_ HC]. rewrite ups_app in HC. apply cons_app in HC. tauto. }
  destruct (cl_advance _ _ _ laws _ F false HC) as (merged & out & front & E1 & U1 & B1 & K1 & W1 & L1 & N1 & N2 & _ & Hold). rewrite ups_app in U1.
  assert (HD : data_before Fr (ups (cbm_merged m) ++ ups produced)).
  { apply data_before_ext; auto. destruct H12 as [H12|H12]; auto. right. intros Eu. apply (ups_nil ok rows) in Eu; auto. }
  assert (CO : consolidated (A:=D*T) ((ups (cbm_settled m) ++ ups (cbm_advanced m)) ++ ups out)).
  { apply cons_app. split; auto. split; auto. eapply advanced_before; eauto. intros x y Hx Hy. apply HD; auto. rewrite U1. apply in_or_app; auto. }
  destruct (cl_settle_more _ _ _ laws _ _ out H13 N2) as (advanced & o & E2 & S2 & R2). { rewrite <- app_assoc in CO. apply cons_app in CO. tauto. }
  exists merged, out, advanced, o. rewrite H1. split; auto. split; auto. exists (Fr ++ front).
  assert (HO : ups (cbm_settled m ++ o) ++ ups advanced = (ups (cbm_settled m) ++ ups (cbm_advanced m)) ++ ups out).
  { rewrite ups_app, <- !app_assoc. f_equal. symmetry. exact R2. }
  assert (HE : (Fr ++ front) ++ ups merged = (Fr ++ ups (cbm_merged m)) ++ ups produced) by (rewrite <- !app_assoc; f_equal; symmetry; exact U1).
  constructor; cbn [cbm_frontier cbm_lower cbm_upper cbm_in1 cbm_in2 cbm_idx1 cbm_idx2 cbm_merged cbm_advanced cbm_settled cbm_complete]; auto.
  - rewrite HE. exact HM.
  - intros x y Hx Hy. apply in_app_or in Hx as [Hx|Hx]; auto. apply HD; auto. rewrite U1. apply in_or_app; auto.
  - destruct (cbm_merged m ++ produced) as [|c l] eqn:Ec.
    + left. apply app_eq_nil in Ec as [E3 E4]. rewrite E3, E4 in *. destruct H12 as [-> |H12]; [|congruence]. cbn in U1. symmetry in U1. apply app_eq_nil in U1 as [-> _]. auto.
    + right. apply Hold; auto. discriminate.
  - rewrite HO. exact CO.
  - rewrite HO, map_app. apply same_weights_app; auto.
  - rewrite HO, !app_length in *. lia.
  - rewrite HE. rewrite (app_length _ (ups produced)). lia.
Qed.
Lemma last_ok m b1 b2 F r Fr in1 in2 idx1 idx2 : under_way m b1 b2 F r Fr [] [] -> cbm_in1 m = [] -> cbm_in2 m = [] ->
  exists merged out advanced o, ch_advance ops (cbm_merged m) (cbm_frontier m) true = Some (merged, out) /\
    ch_settle ops (cbm_advanced m ++ out) true = Some (advanced, o) /\
    finished {| cbm_frontier := cbm_frontier m; cbm_lower := cbm_lower m; cbm_upper := cbm_upper m; cbm_in1 := in1; cbm_in2 := in2;
       cbm_idx1 := idx1; cbm_idx2 := idx2; cbm_merged := merged; cbm_advanced := advanced; cbm_settled := cbm_settled m ++ o; cbm_complete := true |} b1 b2 F.
Proof.
  intros [H1 H2 H3 H4 H5 H6 H7 H8 H9 H10 H11 H12 H13 H14 H15 H16 H17 H18] I1 I2. rewrite I1, I2 in *. cbn [app updates_of flat_map length] in *.
  assert (HC : chain (cbm_merged m)). { split; auto. pose proof (mg_out _ _ _ _ H10) as Hc. apply cons_app in Hc. tauto. }
  destruct (cl_advance _ _ _ laws _ F true HC) as (merged & out & front & E1 & U1 & B1 & K1 & W1 & L1 & N1 & N2 & Hd & _). rewrite (Hd eq_refl) in *. cbn [updates_of flat_map] in U1. rewrite app_nil_r in U1. subst front.
  assert (CO : consolidated (A:=D*T) ((ups (cbm_settled m) ++ ups (cbm_advanced m)) ++ ups out)). { apply cons_app. split; auto. split; auto. eapply advanced_before; eauto. }
  destruct (cl_settle_done _ _ _ laws _ _ out H13 N2) as (o & E2 & R2 & G & N). { rewrite <- app_assoc in CO. apply cons_app in CO. tauto. }
  exists [], out, [], o. rewrite H1. split; auto. split; auto. unfold finished. cbn [cbm_frontier cbm_lower cbm_upper cbm_settled cbm_complete].
  assert (HO : ups (cbm_settled m ++ o) = (ups (cbm_settled m) ++ ups (cbm_advanced m)) ++ ups out).
  { rewrite ups_app, <- !app_assoc. f_equal. symmetry. exact R2. }
  assert (HK : consolidated (A:=D*T) (ups (cbm_settled m ++ o))). { rewrite HO. exact CO. }
  repeat (split; [auto; fail|]). split; [split; auto|]. split; auto. split.
  - apply consolidated_unique; auto; [apply consolidate_consolidated|]. eapply same_weights_trans; [|apply same_weights_sym, consolidate_weight].
    rewrite HO. eapply same_weights_trans; [apply same_weights_app; eassumption|]. change (fun u => (fst (fst u), advance_by (time_of u) F, snd u)) with (adv_time (D:=D) (R:=R) F). rewrite <- map_app. apply (same_weights_adv []).
    pose proof (mg_same _ _ _ _ H10) as HS. cbn [app] in HS. rewrite app_nil_r in HS. exact HS.
  - rewrite HO, !app_length in *. lia.
Qed.

Lemma loop_ok rounds : forall m b1 b2 F r Fr more1 more2 fuel, under_way m b1 b2 F r Fr more1 more2 ->
  length (cbm_in1 m ++ more1) + length (cbm_in2 m ++ more2) < rounds ->
  exists m' rest, cbm_loop ops rounds m (cb_chunks b1) (cb_chunks b2) fuel = Some (m', rest) /\
    ((Z.of_nat r < fuel)%Z -> (0 < rest)%Z) /\
    ((rest <= 0)%Z -> exists r' Fr' more1' more2', under_way m' b1 b2 F r' Fr' more1' more2' /\ (Z.of_nat r' <= Z.of_nat r - fuel)%Z /\
       length (cbm_in1 m' ++ more1') + length (cbm_in2 m' ++ more2') <= length (cbm_in1 m ++ more1) + length (cbm_in2 m ++ more2)) /\
    ((0 < rest)%Z -> finished m' b1 b2 F).
Proof.
  induction rounds as [|rounds IH]; intros m b1 b2 F r Fr more1 more2 fuel HU HR; [lia|]. cbn [cbm_loop].
  destruct (Z.ltb_spec 0 fuel) as [Hf|Hf].
  2:{ exists m, fuel. split; auto. split; [lia|]. split; [|lia]. intros _. exists r, Fr, more1, more2. split; auto. split; lia. }
  destruct (refill_ok (cbm_in1 m) (cbm_idx1 m) (cb_chunks b1) more1 (uw_more1 _ _ _ _ _ _ _ _ HU)) as (l1 & more1' & E1 & M1 & M1' & Z1). rewrite E1.
  destruct (refill_ok (cbm_in2 m) (cbm_idx2 m) (cb_chunks b2) more2 (uw_more2 _ _ _ _ _ _ _ _ HU)) as (l2 & more2' & E2 & M2 & M2' & Z2). rewrite E2.
  set (in1 := cbm_in1 m ++ l1) in *. set (in2 := cbm_in2 m ++ l2) in *.
  assert (A1 : cbm_in1 m ++ more1 = in1 ++ more1') by (unfold in1; rewrite M1, app_assoc; auto).
  assert (A2 : cbm_in2 m ++ more2 = in2 ++ more2') by (unfold in2; rewrite M2, app_assoc; auto).
  pose proof (uw_in1 _ _ _ _ _ _ _ _ HU) as C1. pose proof (uw_in2 _ _ _ _ _ _ _ _ HU) as C2. pose proof (uw_merge _ _ _ _ _ _ _ _ HU) as HM. pose proof (uw_left _ _ _ _ _ _ _ _ HU) as HL.
  rewrite A1 in C1, HM, HL, HR. rewrite A2 in C2, HM, HL, HR. rewrite A1, A2.
  (* a round that is not the last *)
  assert (Hgo : forall i1 i2 produced, chain (i1 ++ more1') -> chain (i2 ++ more2') -> nonempties produced ->
    merge_at ((Fr ++ ups (cbm_merged m)) ++ ups produced) (ups (i1 ++ more1')) (ups (i2 ++ more2')) (cb_contents b1 ++ cb_contents b2) ->
    length (ups produced) + length (ups (i1 ++ more1')) + length (ups (i2 ++ more2')) <= r ->
    length (i1 ++ more1') + length (i2 ++ more2') < length (in1 ++ more1') + length (in2 ++ more2') ->
    exists m' rest, (' (merged, out) <- ch_advance ops (cbm_merged m ++ produced) (cbm_frontier m) false;
            ' (advanced, out) <- ch_settle ops (cbm_advanced m ++ out) false;
            cbm_loop ops rounds {| cbm_frontier := cbm_frontier m; cbm_lower := cbm_lower m; cbm_upper := cbm_upper m; cbm_in1 := i1; cbm_in2 := i2;
                     cbm_idx1 := cbm_idx1 m + length l1; cbm_idx2 := cbm_idx2 m + length l2; cbm_merged := merged; cbm_advanced := advanced; cbm_settled := cbm_settled m ++ out; cbm_complete := false |}
                     (cb_chunks b1) (cb_chunks b2) (fuel - Z.of_nat (total_len ops produced))%Z) = Some (m', rest) /\
    ((Z.of_nat r < fuel)%Z -> (0 < rest)%Z) /\
    ((rest <= 0)%Z -> exists r' Fr' more1'' more2'', under_way m' b1 b2 F r' Fr' more1'' more2'' /\ (Z.of_nat r' <= Z.of_nat r - fuel)%Z /\
       length (cbm_in1 m' ++ more1'') + length (cbm_in2 m' ++ more2'') <= length (in1 ++ more1') + length (in2 ++ more2')) /\
    ((0 < rest)%Z -> finished m' b1 b2 F)).
  { intros i1 i2 produced D1 D2 NP HM' HLr HLc.
    destruct (round_ok m b1 b2 F r Fr more1 more2 i1 i2 (cbm_idx1 m + length l1) (cbm_idx2 m + length l2) produced more1' more2' HU M1' M2' D1 D2 NP HM' HLr)
      as (merged & out & advanced & o & X1 & X2 & Fr' & HU'). rewrite X1, X2.
    destruct (IH _ _ _ _ _ _ _ _ (fuel - Z.of_nat (total_len ops produced))%Z HU') as (m' & rest & Y1 & Y2 & Y3 & Y4); cbn [cbm_in1 cbm_in2] in *; [lia|].
    exists m', rest. rewrite (total_len_ok ops ok rows laws) in * by auto. split; [exact Y1|]. split; [intros; apply Y2; lia|]. split; [|exact Y4].
    intros Hr. destruct (Y3 Hr) as (r' & Fr'' & m1 & m2 & V1 & V2 & V3). exists r', Fr'', m1, m2. split; auto. split; lia. }
  apply chain_split in C1 as (C1a & C1b & C1c). apply chain_split in C2 as (C2a & C2b & C2c).
  destruct (negb (is_nil in1) && negb (is_nil in2)) eqn:Eb.
  - assert (N1 : in1 <> []) by (intros Ex; rewrite Ex in Eb; discriminate). assert (N2 : in2 <> []) by (intros Ex; rewrite Ex, andb_false_r in Eb; discriminate).
    rewrite (ups_app rows in1), (ups_app rows in2) in HM. destruct (merge_call ops ok rows laws in1 (ups more1') in2 (ups more2') _ _ C1a C2a N1 N2 HM) as (i1 & i2 & out & X1 & X2 & X3 & X4 & X5 & X6 & X7 & X8 & X9).
    rewrite X1. rewrite <- !ups_app in X5.
    assert (G : forall i (i' : list C) mo, chain i -> chain mo -> consolidated (A:=D*T) (ups (i ++ mo)) -> chain (i ++ mo)). { intros i i' mo Q1 Q2 Q3. split; [apply non_app; split; [apply Q1|apply Q2]|auto]. }
    apply Hgo; auto; [apply (G i1 [] more1'); auto; apply (mg_in1 _ _ _ _ X5)|apply (G i2 [] more2'); auto; apply (mg_in2 _ _ _ _ X5)| |rewrite !app_length; lia].
    rewrite !ups_app, !app_length in *. lia.
  - destruct in1 as [|c i1] eqn:Ei1.
    + destruct in2 as [|c i2] eqn:Ei2.
      * (* the last round *)
        rewrite (Z1 eq_refl) in *. rewrite (Z2 eq_refl) in *. rewrite app_nil_r in M1, M2. unfold in1 in Ei1. unfold in2 in Ei2. apply app_eq_nil in Ei1 as [I1 L1]. apply app_eq_nil in Ei2 as [I2 L2]. rewrite M1, M2, L1, L2 in HU.
        destruct (last_ok m b1 b2 F r Fr [] [] (cbm_idx1 m + length l1) (cbm_idx2 m + length l2) HU I1 I2) as (merged & out & advanced & o & X1 & X2 & X3). rewrite X1, X2.
        eexists _, fuel. split; [reflexivity|]. split; [auto|]. split; [lia|]. auto.
      * cbn [is_nil negb andb] in *. rewrite (Z1 eq_refl) in *. apply (chain_split ok rows [c] i2) in C2a as (D1 & D2 & D3).
        assert (EX : ups ((c :: i2) ++ more2') = ups [c] ++ ups (i2 ++ more2')) by (rewrite <- ups_app; reflexivity). rewrite EX in HM, HL.
        apply Hgo; [|apply chain_split; split; [auto; fail|split; [auto; fail|]]|apply D1| |cbn [app] in *; rewrite !app_length in *; cbn [length] in *; lia|cbn [app length]; lia].
        { rewrite app_nil_r. split; [constructor|apply consolidated_nil]. }
        { intros x y Hx Hy. apply C2c; auto. change (c :: i2) with ([c] ++ i2). rewrite ups_app. apply in_or_app; auto. }
        apply (merging_step _ [] _ (ups [c]) _ (ups [c]) _ HM); [apply D1|apply same_weights_refl|apply before_nil_l|apply before_nil_r].
    + destruct in2 as [|c2 i2] eqn:Ei2; [|discriminate]. rewrite (Z2 eq_refl) in *. apply (chain_split ok rows [c] i1) in C1a as (D1 & D2 & D3).
      assert (EX : ups ((c :: i1) ++ more1') = ups [c] ++ ups (i1 ++ more1')) by (rewrite <- ups_app; reflexivity). rewrite EX in HM, HL.
      apply Hgo; [apply chain_split; split; [auto; fail|split; [auto; fail|]]|rewrite app_nil_r; split; [constructor|apply consolidated_nil]|apply D1| |rewrite !app_length in *; lia|cbn [app length]; lia].
      { intros x y Hx Hy. apply C1c; auto. change (c :: i1) with ([c] ++ i1). rewrite ups_app. apply in_or_app; auto. }
      apply (merging_step _ (ups [c]) _ [] _ (ups [c]) _ HM); [apply D1|rewrite app_nil_r; apply same_weights_refl|apply before_nil_r|apply before_nil_l].
Qed.

(** ** The contract the trace relies on *)
Definition chunk_batch_ops : BatchOps batch merger T := {|
  b_desc := cb_desc; b_len := cb_len ops; b_begin := cbm_new; b_work := cbm_work ops; b_done := cbm_done ops; b_empty := cb_empty ops |}.
Definition chunk_merging (m : merger) (b1 b2 : batch) (F : list T) (r : nat) : Prop :=
  (spans chunk_batch_ops b1 /\ spans chunk_batch_ops b2 /\ same_future (upper_of chunk_batch_ops b1) (lower_of chunk_batch_ops b2) /\ lower_of chunk_batch_ops b1 <> []) /\
  (cb_ok b1 /\ cb_ok b2) /\
  exists Fr more1 more2, under_way m b1 b2 F r Fr more1 more2 /\
    length (cbm_in1 m ++ more1) + length (cbm_in2 m ++ more2) <= length (cb_chunks b1) + length (cb_chunks b2).

Lemma begin_ok b1 b2 F : cb_ok b1 -> cb_ok b2 -> exists m, cbm_new b1 b2 F = Some m /\
  under_way m b1 b2 F (length (cb_contents b1) + length (cb_contents b2)) [] (cb_chunks b1) (cb_chunks b2) /\
  length (cbm_in1 m ++ cb_chunks b1) + length (cbm_in2 m ++ cb_chunks b2) <= length (cb_chunks b1) + length (cb_chunks b2).
Proof.
  intros [[N1 C1] _] [[N2 C2] _]. eexists. split; [reflexivity|]. split; [|cbn; lia]. constructor; cbn; auto.
  - split; auto.
  - split; auto.
  - constructor.
  - apply merging_start; auto.
  - intros x y [].
  - apply cl_settling_nil.
  - apply consolidated_nil.
  - apply same_weights_refl.
Qed.
Lemma same_ends (L1 L2 U1 U2 : list T) : (forall t, beyond U1 t -> beyond L1 t) -> (forall t, beyond U2 t -> beyond L2 t) -> same_future U1 L2 ->
  same_future (antichain_meet L1 L2) L1 /\ same_future (antichain_join U1 U2) U2.
Proof. intros H1 H2 H3. split; intros t; [rewrite antichain_meet_beyond|rewrite antichain_join_beyond]; specialize (H3 t); specialize (H1 t); specialize (H2 t); tauto. Qed.
Lemma same_future_nil (F G : list T) : same_future F G -> G <> [] -> F <> [].
Proof. intros H HG ->. destruct G as [|g G]; [congruence|]. assert (Hb : beyond (g :: G) g) by (exists g; split; [left; auto|apply tle_refl]). apply H in Hb. exact (beyond_nil _ Hb). Qed.

Lemma done_ok m b1 b2 F : finished m b1 b2 F -> spans chunk_batch_ops b1 -> spans chunk_batch_ops b2 -> same_future (upper_of chunk_batch_ops b1) (lower_of chunk_batch_ops b2) ->
  lower_of chunk_batch_ops b1 <> [] ->
  exists b, cbm_done ops m = Some b /\ cb_ok b /\ spans chunk_batch_ops b /\
    same_future (lower_of chunk_batch_ops b) (lower_of chunk_batch_ops b1) /\ same_future (upper_of chunk_batch_ops b) (upper_of chunk_batch_ops b2) /\
    since_of chunk_batch_ops b = F /\ cb_contents b = consolidate (A:=D*T) (map (adv_time F) (cb_contents b1 ++ cb_contents b2)) /\
    length (cb_contents b) <= length (cb_contents b1) + length (cb_contents b2).
Proof.
  intros (H1 & H2 & H3 & H4 & H5 & H6 & H7 & H8) (A1 & A2 & A3) (B1 & B2 & B3) HF HN.
  unfold spans, lower_of, upper_of, since_of in *. cbn [b_desc chunk_batch_ops] in *.
  destruct (same_ends _ _ _ _ A3 B3 HF) as [E1 E2].
  unfold cbm_done, desc_new. rewrite H2. destruct (antichain_meet _ _) as [|t0 l] eqn:El; [exfalso; exact (same_future_nil _ _ E1 HN eq_refl)|]. rewrite <- El in *.
  rewrite cb_new_ok by apply H5. eexists. split; [reflexivity|]. cbn [cb_desc d_lower d_upper d_since cb_chunks]. unfold cb_ok, cb_contents. cbn [cb_chunks]. rewrite H3. fold (cb_contents b1) (cb_contents b2).
  split; [auto|]. split; [|auto 8]. split; [apply antichain_meet_antichain|]. split; [apply antichain_join_antichain|].
  intros t Ht. apply E1. apply E2 in Ht. apply A3, HF, B3, Ht.
Qed.
Lemma cb_len_ok b : cb_ok b -> cb_len ops b = length (cb_contents b).
Proof. intros [[H _] _]. revert H. apply (total_len_ok ops ok rows laws). Qed.

Definition chunk_laws : BatchLaws (D:=D) chunk_batch_ops cb_contents.
Proof.
  refine (Build_BatchLaws chunk_batch_ops cb_contents cb_ok chunk_merging _ _ _ _).
  - intros b Hb. apply cb_len_ok, Hb.
  - intros lo up Hlo. cbn [b_empty chunk_batch_ops]. unfold cb_empty, desc_new. destruct lo as [|t lo]; [contradiction|]. rewrite cb_new_ok by constructor.
    eexists. split; [reflexivity|]. split; [split; [split; [constructor|apply consolidated_nil]|apply graded_nil]|]. split; [reflexivity|]. split; [reflexivity|]. split; [reflexivity|].
    intros u. exists tmin. split; [left; auto|apply tmin_le].
  - intros b1 b2 F H1 H2 S1 S2 HSF HN HF. destruct (begin_ok b1 b2 F H1 H2) as (m & E & HU & HL). exists m, F, (length (cb_contents b1) + length (cb_contents b2)).
    split; [exact E|]. split; [split; [auto|eauto 8]|]. cbn [b_len chunk_batch_ops]. rewrite !cb_len_ok by auto. auto.
  - intros m b1 b2 F r fuel ((S1 & S2 & HSF & HN) & (OK1 & OK2) & Fr & more1 & more2 & HU & HL). cbn [b_work b_done b_len chunk_batch_ops]. unfold cbm_work. rewrite (uw_complete _ _ _ _ _ _ _ _ HU).
    destruct (loop_ok (S (length (cb_chunks b1) + length (cb_chunks b2))) m b1 b2 F r Fr more1 more2 fuel HU) as (m' & rest & E & K1 & K2 & K3); [lia|].
    exists m', rest. split; [exact E|]. split; [exact K1|]. split.
    + intros Hr. destruct (K2 Hr) as (r' & Fr' & more1' & more2' & HU' & Hr' & HL'). exists r'. split; auto. split; auto. split; auto. exists Fr', more1', more2'. split; auto. lia.
    + intros Hr. destruct (done_ok _ _ _ _ (K3 Hr) S1 S2 HSF HN) as (b & Q1 & Q2 & Q3 & Q4 & Q5 & Q6 & Q7 & Q8). exists b. repeat (split; [auto; fail|]).
      split; [rewrite !cb_len_ok; auto|]. rewrite Q7. exact (proj1 (proj2 (compaction_ok (D:=D) F (cb_contents b1 ++ cb_contents b2)))).
Defined.

(** ** The builder *)
Lemma seal_ok l d : chain l -> exists b, cbb_seal ops l d = Some b /\ cb_ok b /\ cb_contents b = ups l /\ cb_desc b = d.
Proof.
  intros [N HC]. unfold cbb_seal, settle_all. destruct (cl_settle_done _ _ _ laws [] [] l (cl_settling_nil _ _ _ laws) N HC) as (o & E & R2 & G & N2). cbn [app] in *. rewrite E, cb_new_ok by auto.
  eexists. split; [reflexivity|]. unfold cb_ok, cb_contents. cbn [cb_chunks cb_desc]. cbn in R2. rewrite <- R2. split; [|auto]. split; auto. split; auto. rewrite <- R2. auto.
Qed.
Lemma pushes_ok l : forall st, Forall ok l -> settling (snd st) (fst st) -> consolidated (A:=D*T) (ups (fst st) ++ ups l) -> exists st', fold_left (fun st c => match st with Some st => cbb_push ops st c | None => None end) l (Some st) = Some st' /\
  settling (snd st') (fst st') /\ ups (snd st') ++ ups (fst st') = ups (snd st) ++ ups (fst st) ++ ups l.
Proof.
  induction l as [|c l IH]; intros st HO HS HC; cbn [fold_left].
  - exists st. cbn. rewrite app_nil_r. auto.
  - inversion HO as [|? ? Oc HO']; subst. change (ups (c :: l)) with (rows c ++ ups l) in HC. rewrite app_assoc in HC. pose proof HC as HC0. apply cons_app in HC0 as (HC0 & _ & _).
    assert (H : exists st1, cbb_push ops st c = Some st1 /\ settling (snd st1) (fst st1) /\ (exists o, ups (fst st) ++ rows c = o ++ ups (fst st1)) /\ ups (snd st1) ++ ups (fst st1) = ups (snd st) ++ ups (fst st) ++ rows c).
    { unfold cbb_push. rewrite (cl_len _ _ _ laws) by auto. destruct (Nat.ltb_spec 0 (length (rows c))) as [Hc|Hc].
      - destruct (cl_settle_more _ _ _ laws (snd st) (fst st) [c] HS) as (q & o & E & S2 & R2); [constructor; [split; auto; intros Ec; rewrite Ec in Hc; cbn in Hc; lia|constructor]|cbn; rewrite app_nil_r; auto|]. rewrite E. eexists. split; [reflexivity|]. cbn [fst snd]. split; auto.
        assert (R3 := R2). cbn in R3. rewrite app_nil_r in R3. split; [eexists; exact R3|].
        rewrite ups_app, <- app_assoc, <- R2. cbn. rewrite app_nil_r. reflexivity.
      - destruct (rows c); [|cbn in Hc; lia]. exists st. rewrite !app_nil_r. split; auto. split; auto. split; auto. exists []. auto. }
    destruct H as (st1 & -> & S1 & (o & R0) & R1). rewrite R0, <- app_assoc in HC. apply cons_app in HC as (_ & HC & _). destruct (IH st1 HO' S1 HC) as (st' & E & S2 & R2). exists st'. split; auto. split; auto. rewrite R2, app_assoc, R1, <- !app_assoc. reflexivity.
Qed.
(** Pushing chunks, and then asking for the batch. *)
Lemma build_ok l d : Forall ok l -> consolidated (A:=D*T) (ups l) -> exists st b, fold_left (fun st c => match st with Some st => cbb_push ops st c | None => None end) l (Some ([], [])) = Some st /\
  cbb_done ops st d = Some b /\ cb_ok b /\ cb_contents b = ups l /\ cb_desc b = d.
Proof.
  intros HO HC. destruct (pushes_ok l ([], [])) as (st & E & S & R2); [exact HO|apply cl_settling_nil|exact HC|]. cbn in R2. unfold cbb_done.
  destruct (finish ops ok rows laws _ _ S) as (o & E2 & R3 & G & N). { rewrite <- R2 in HC. apply cons_app in HC. tauto. } exists st. rewrite E2, cb_new_ok by auto. eexists. split; [exact E|]. split; [reflexivity|]. unfold cb_ok, cb_contents. cbn [cb_chunks cb_desc].
  rewrite <- R3, R2. split; [|auto]. split; auto. split; auto. rewrite <- R3, R2. auto.
Qed.

(** ** Calls of [advance] *)
Lemma advance_calls_ok F pushes : forall queue Fr A,
  nonempties queue -> Forall nonempties pushes -> consolidated (A:=D*T) (Fr ++ ups queue ++ ups (concat pushes)) ->
  data_before Fr (ups queue) -> Fr = [] \/ queue <> [] -> consolidated (A:=D*T) A -> same_weights (A:=D*T) A (map (adv_time F) Fr) ->
  exists out, in_calls (fun q done => ch_advance ops q F done) queue pushes = Some out /\ nonempties out /\
    consolidated (A:=D*T) (A ++ ups out) /\ same_weights (A:=D*T) (A ++ ups out) (map (adv_time F) (Fr ++ ups queue ++ ups (concat pushes))).
Proof.
  induction pushes as [|new pushes IH]; intros queue Fr A NQ NP HC HD HH CA WA; cbn [in_calls concat] in *.
  - change (ups []) with (@nil U) in *. rewrite app_nil_r in *. apply cons_app in HC as (K1 & K2 & K3).
    destruct (cl_advance _ _ _ laws queue F true (conj NQ K2)) as (q & out & front & E1 & U1 & B1 & C1 & W1 & _ & _ & N2 & Hd & _). rewrite (Hd eq_refl) in *. cbn [updates_of flat_map] in U1. rewrite app_nil_r in U1. subst front.
    rewrite E1. exists out. split; auto. split; auto. split; [|rewrite map_app; apply same_weights_app; auto].
    apply cons_app. split; auto. split; auto. eapply advanced_before; eauto.
  - inversion NP as [|? ? Nn NP']; subst. rewrite ups_app in HC |- *. rewrite !app_assoc in HC. apply cons_app in HC as (K1 & K2 & K3). rewrite <- app_assoc in K1. apply cons_app in K1 as (K4 & K5 & K6).
    assert (HQ : chain (queue ++ new)) by (split; [apply non_app; auto|rewrite ups_app; auto]).
    assert (HB : all_before (ups queue) (ups new)) by (apply cons_app in K5; tauto).
    destruct (cl_advance _ _ _ laws _ F false HQ) as (q & out & front & E1 & U1 & B1 & C1 & W1 & _ & N1 & N2 & _ & Hold). rewrite E1. rewrite ups_app in U1.
    assert (HDn : data_before Fr (ups queue ++ ups new)). { apply data_before_ext; auto. destruct HH as [HH|HH]; auto. right. intros Eu. apply (ups_nil ok rows) in Eu; auto. }
    destruct (IH q (Fr ++ front) (A ++ ups out)) as (out' & E2 & N3 & C3 & W3); auto.
    + rewrite app_assoc, <- (app_assoc Fr), <- U1. apply cons_app. split; [apply cons_app; auto|split; auto].
      rewrite app_assoc. auto.
    + intros x y Hx Hy. apply in_app_or in Hx as [Hx|Hx]; auto. apply HDn; auto. rewrite U1. apply in_or_app; auto.
    + destruct (queue ++ new) as [|c l] eqn:Ec; [left|right; apply Hold; auto; discriminate]. apply app_eq_nil in Ec as [E3 E4]. rewrite E3, E4 in *. destruct HH as [-> |HH]; [|congruence]. cbn in U1. symmetry in U1. apply app_eq_nil in U1 as [-> _]. auto.
    + apply cons_app. split; auto. split; auto. eapply advanced_before; eauto. intros x y Hx Hy. apply HDn; auto. rewrite U1. apply in_or_app; auto.
    + rewrite map_app. apply same_weights_app; auto.
    + rewrite E2. exists (out ++ out'). rewrite ups_app, !app_assoc in *. split; auto. split; [apply non_app; auto|]. split; auto.
      replace (((Fr ++ ups queue) ++ ups new) ++ ups (concat pushes)) with (((Fr ++ front) ++ ups q) ++ ups (concat pushes)); auto. f_equal. rewrite <- !app_assoc. f_equal. symmetry. exact U1.
Qed.

(** ** Calls of [work] *)
Lemma work_done m b1 b2 fuels : cbm_complete m = true -> work_calls ops m b1 b2 fuels = Some m.
Proof. intros H. induction fuels as [|f fuels IH]; cbn; auto. unfold cbm_work. rewrite H. exact IH. Qed.
Lemma work_calls_ok b1 b2 F fuels : forall m r Fr more1 more2, under_way m b1 b2 F r Fr more1 more2 ->
  length (cbm_in1 m ++ more1) + length (cbm_in2 m ++ more2) <= length (cb_chunks b1) + length (cb_chunks b2) ->
  exists m', work_calls ops m b1 b2 fuels = Some m' /\
    ((Z.of_nat r < fold_right Z.add 0 fuels)%Z -> cbm_complete m' = true) /\ (cbm_complete m' = true -> finished m' b1 b2 F).
Proof.
  induction fuels as [|f fuels IH]; intros m r Fr more1 more2 HU HL; cbn [work_calls fold_right].
  - exists m. split; auto. split; [lia|]. rewrite (uw_complete _ _ _ _ _ _ _ _ HU). discriminate.
  - unfold cbm_work. rewrite (uw_complete _ _ _ _ _ _ _ _ HU).
    destruct (loop_ok (S (length (cb_chunks b1) + length (cb_chunks b2))) m b1 b2 F r Fr more1 more2 f HU) as (m' & rest & E & K1 & K2 & K3); [lia|]. rewrite E.
    destruct (Z.le_gt_cases rest 0) as [Hr|Hr].
    + destruct (K2 Hr) as (r' & Fr' & more1' & more2' & HU' & Hr' & HL'). destruct (IH m' r' Fr' more1' more2' HU') as (m2 & E2 & Q1 & Q2); [lia|]. exists m2. split; auto. split; auto. intros Hs. apply Q1. lia.
    + pose proof (K3 ltac:(lia)) as HF. assert (HD : cbm_complete m' = true) by apply HF. exists m'. rewrite (work_done m' b1 b2 fuels HD). auto.
Qed.
End Chunks.
