(** * The merge of a pair of columnar chunks *)
From Coq Require Import Arith Lia.
From Verif Require Import Base.Arrays Base.Collections Spec.Collection Model.ColumnarM Proofs.ColListsP Proofs.ColSurveyP Proofs.ColTrimP Proofs.ColTrieP Proofs.ColMergeP.
From Verif Require Import Base.Order.

Section Pair.
Context {K V T R : Type} {OK : Ord K} {OV : Ord V} {TT : Time T} {DR : Diff R}.
Local Notation U := (K * V * T * R)%type.
Local Notation Upd := (Updates K V T R).

Lemma stop_le E p p' q q' s f : zips E p p' q q' s -> stop0 p (trimmed f s) <= p'.
Proof.
  intros H. destruct (trimmed_split f s) as (th & Es & _). rewrite Es in H. apply zips_app in H as (a & b & H1 & H2). rewrite (zips_stop _ _ _ _ _ _ H1). apply zips_le in H2. lia.
Qed.
Lemma zips_trimmed E p p' q q' s f : zips E p p' q q' s -> exists a b, zips E p a q b (trimmed f s) /\ a <= p' /\ b <= q'.
Proof.
  intros H. destruct (trimmed_split f s) as (th & Es & _). rewrite Es in H. apply zips_app in H as (a & b & H1 & H2). apply zips_le in H2. exists a, b. repeat split; auto; lia.
Qed.
(** The cursor left at the first input. *)
Lemma cursor_ok (ks : list K) vs ts (vs1 : list (list V)) (ts1 : list (list T)) KS VS TS gV gT Ek Ev Et q1 q2 q3 : shaped ks vs ts ->
  Forall (fun g => g <> []) vs1 -> Forall (fun g => g <> []) ts1 -> full vs vs1 KS VS gV -> full ts ts1 VS TS gT ->
  zips Ek 0 (length ks) 0 q1 KS -> zips Ev 0 (length (concat vs)) 0 q2 VS -> zips Et 0 (length (concat ts)) 0 q3 TS ->
  let t := stop0 0 (trimmed is_this TS) in t < length (concat ts) ->
  exists v k, nudge_down (ls_bounds (lists_of ts)) (stop0 0 (trimmed is_this VS)) t = Some v /\ nudge_down (ls_bounds (lists_of vs)) (stop0 0 (trimmed is_this KS)) v = Some k /\
    parent ts v t /\ parent vs k v.
Proof.
  intros HS F1 F2 HV HT Zk Zv Zt t Lt.
  pose proof (trim_stops ts ts1 F2 _ _ _ HT _ _ _ _ _ Zv) as ST. rewrite off_0 in ST. fold t in ST.
  pose proof (trim_stops vs vs1 F1 _ _ _ HV _ _ _ _ _ Zk) as SV. rewrite off_0 in SV.
  pose proof (stop_le _ _ _ _ _ _ is_this Zv) as Lv. pose proof (stop_le _ _ _ _ _ _ is_this Zk) as Lk.
  destruct (nudge_down_item ts (sh_tfull _ _ _ HS) _ _ _ _ ST) as (v & Ev1 & Pv & Hv); [rewrite (sh_times _ _ _ HS); auto|auto|].
  assert (Hvl : v < length (concat vs)) by (destruct Pv; rewrite <- (sh_times _ _ _ HS); auto).
  destruct Hv as [->|(Ev2 & Hb)].
  - destruct (nudge_down_item vs (sh_vfull _ _ _ HS) _ _ _ _ SV) as (k & Ek1 & Pk & _); [rewrite (sh_vals _ _ _ HS); auto|auto|]. eauto 8.
  - destruct (nudge_down_before vs (sh_vfull _ _ _ HS) _ _ _ _ v SV) as (k & Ek1 & Pk); auto; [rewrite (sh_vals _ _ _ HS); auto|]. eauto 8.
Qed.

Section Two.
Context (ks0 : list K) (vs0 : list (list V)) (ts0 : list (list T)) (us0 : list U) (HS0 : shaped ks0 vs0 ts0) (E0 : paths ks0 vs0 ts0 = map fst us0) (N0 : us0 <> []).
Context (ks1 : list K) (vs1 : list (list V)) (ts1 : list (list T)) (us1 : list U) (HS1 : shaped ks1 vs1 ts1) (E1 : paths ks1 vs1 ts1 = map fst us1) (N1 : us1 <> []).
Local Notation u0 := (cols ks0 vs0 ts0 (singles us0)).
Local Notation u1 := (cols ks1 vs1 ts1 (singles us1)).
Local Notation P0 := (map fst us0).
Local Notation P1 := (map fst us1).

Lemma len_us (ks : list K) vs ts (us : list U) : shaped ks vs ts -> paths ks vs ts = map fst us -> length us = length (concat ts).
Proof. intros HS E. rewrite <- (paths_length _ _ _ HS), E, map_length. reflexivity. Qed.
Lemma keys_nonempty (ks : list K) vs ts (us : list U) : shaped ks vs ts -> paths ks vs ts = map fst us -> us <> [] -> ks <> [].
Proof. intros HS E N ->. cbn in E. destruct us; [congruence|discriminate]. Qed.
Lemma root_one (ks : list K) : ks <> [] -> root ks = [ks].
Proof. destruct ks; [congruence|reflexivity]. Qed.

Lemma written KS VS TS gK gV gT a b a' b' c d : refines [ks0] [ks1] [Both 0 0] KS gK -> refines vs0 vs1 KS VS gV -> refines ts0 ts1 VS TS gT ->
  zips (same ks0 ks1) 0 a' 0 b' KS -> a' <= length ks0 -> b' <= length ks1 ->
  zips (same (expand ks0 vs0) (expand ks1 vs1)) 0 c 0 d VS -> c <= length (concat vs0) -> d <= length (concat vs1) ->
  zips (same P0 P1) 0 a 0 b TS -> a <= length us0 -> b <= length us1 ->
  Forall (fun x => is_zero (snd x) = false) us0 -> Forall (fun x => is_zero (snd x) = false) us1 ->
  exists out o rows, write_from_surveys u0 u1 [Both 0 0] KS VS TS = Some out /\ without_empty out = Some o /\ holds o rows /\ consolidated (A:=K*V*T) rows /\
    same_weights (A:=K*V*T) rows (firstn a us0 ++ firstn b us1) /\ length rows <= a + b.
Proof.
  intros RK RV RT ZK BK0 BK1 ZV BV0 BV1 ZT BT0 BT1 HZ0 HZ1.
  pose proof (keys_nonempty _ _ _ _ HS0 E0 N0) as NK0. pose proof (keys_nonempty _ _ _ _ HS1 E1 N1) as NK1.
  pose proof (sh_vals _ _ _ HS0) as Lv0. pose proof (sh_vals _ _ _ HS1) as Lv1. pose proof (sh_times _ _ _ HS0) as Lt0. pose proof (sh_times _ _ _ HS1) as Lt1.
  assert (HK : exists g, gK = [g] /\ g <> [] /\ strictly_sorted g /\ g = read ks0 ks1 KS).
  { assert (F : Forall (fun g => g <> []) gK /\ Forall strictly_sorted gK).
    { eapply refines_groups; [| | | |exact RK]; repeat constructor; auto; [apply HS0|apply HS1]. }
    assert (W : concat [ks0] = ks0 /\ concat [ks1] = ks1) by (cbn; rewrite !app_nil_r; auto). destruct W as [W0 W1].
    destruct F as [F1 F2]. inversion RK as [| | |i j s S S' gs Hi Hj Hz Hs HR|i j s p q Hi Hj Hz Hp Hq Hn Hs]; subst.
    - inversion HR; subst. rewrite app_nil_r in *. rewrite W0, W1 in *. inversion F1; subst. inversion F2; subst. eauto.
    - rewrite W0, W1 in *. inversion F1; subst. inversion F2; subst. eauto. }
  destruct HK as (g & -> & Ng & Sg & Eg).
  destruct (refines_expand vs0 vs1 ks0 ks1 (eq_sym Lv0) (eq_sym Lv1) _ _ _ RV _ _ _ _ ZK) as [XV LV]; [lia|lia|].
  destruct (refines_expand ts0 ts1 (expand ks0 vs0) (expand ks1 vs1) (vpaths_ts _ _ _ HS0) (vpaths_ts _ _ _ HS1) _ _ _ RT _ _ _ _ ZV) as [XT LT]; [lia|lia|].
  destruct (refines_groups vs0 vs1 _ _ _ (sh_vfull _ _ _ HS0) (sh_vfull _ _ _ HS1) (sh_vsorted _ _ _ HS0) (sh_vsorted _ _ _ HS1) RV) as [FV SV].
  destruct (refines_groups ts0 ts1 _ _ _ (sh_tfull _ _ _ HS0) (sh_tfull _ _ _ HS1) (sh_tsorted _ _ _ HS0) (sh_tsorted _ _ _ HS1) RT) as [FT ST].
  rewrite <- Eg in XV, LV.
  assert (HS : shaped g gV gT).
  { split; auto. rewrite <- (expand_length g gV) by auto. rewrite XV. auto. }
  assert (XP : paths g gV gT = read P0 P1 TS) by (unfold paths; rewrite XV; unfold paths in E0, E1; rewrite XT, E0, E1; reflexivity).
  assert (WO : write_from_surveys u0 u1 [Both 0 0] KS VS TS = Some (cols g gV gT (dread us0 us1 TS))).
  { unfold write_from_surveys, write_layer. cbn [cols u_keys u_vals u_times u_diffs]. rewrite !root_one by auto.
    change (@ls_new K) with (lists_of (@nil (list K))). change (@ls_new V) with (lists_of (@nil (list V))). change (@ls_new T) with (lists_of (@nil (list T))). change (@ls_new R) with (lists_of (@nil (list R))).
    rewrite (write_layer_ok _ _ _ _ _ RK), (write_layer_ok _ _ _ _ _ RV), (write_layer_ok _ _ _ _ _ RT). rewrite (write_diffs_ok us0 us1 TS _ _ _ _ [] ZT) by auto. cbn [app]. unfold cols. rewrite root_one by auto. reflexivity. }
  assert (LD : length (dread us0 us1 TS) = length (concat gT)).
  { rewrite (dread_length us0 us1 TS _ _ _ _ ZT) by auto. rewrite <- XP. apply paths_length. auto. }
  destruct (without_empty_ok g gV gT (dread us0 us1 TS) HS LD (dread_small _ _ _)) as (o & Eo & Ho).
  rewrite XP in Ho. fold (mread us0 us1 TS) in Ho.
  destruct (mread_facts us0 us1 TS _ _ _ _ ZT BT0 BT1) as [C1 C2]; auto; [rewrite <- XP; apply paths_sorted; auto|].
  eexists _, o, _. split; [exact WO|]. split; [exact Eo|]. split; [exact Ho|]. split; auto. split; [|lia].
  pose proof (mread_weights us0 us1 TS _ _ _ _ ZT BT0 BT1) as W. rewrite !sub_0 in W. exact W.
Qed.

Lemma surveys : exists KS VS TS gK gV gT,
  survey (u_keys u0) (u_keys u1) [Both 0 0] = Some KS /\ survey (u_vals u0) (u_vals u1) KS = Some VS /\ survey (u_times u0) (u_times u1) VS = Some TS /\
  full [ks0] [ks1] [Both 0 0] KS gK /\ full vs0 vs1 KS VS gV /\ full ts0 ts1 VS TS gT /\
  zips (same ks0 ks1) 0 (length ks0) 0 (length ks1) KS /\ zips (same (expand ks0 vs0) (expand ks1 vs1)) 0 (length (concat vs0)) 0 (length (concat vs1)) VS /\
  zips (same P0 P1) 0 (length us0) 0 (length us1) TS /\ strictly_sorted (read P0 P1 TS).
Proof.
  pose proof (keys_nonempty _ _ _ _ HS0 E0 N0) as NK0. pose proof (keys_nonempty _ _ _ _ HS1 E1 N1) as NK1.
  cbn [cols u_keys u_vals u_times]. rewrite !root_one by auto.
  destruct (survey_ok [ks0] [ks1] [tt] [tt]) with (S := [Both 0 0]) (p := 0) (p' := 1) (q := 0) (q' := 1) as (KS & gK & EK & FK & ZK); auto; try (repeat constructor; auto; fail).
  { repeat constructor. apply HS0. } { repeat constructor. apply HS1. } { constructor; [|constructor]. exists tt. auto. }
  assert (ZK' : zips (same ks0 ks1) 0 (length ks0) 0 (length ks1) KS).
  { replace (off [ks0] 1) with (length ks0) in ZK by (unfold off; cbn; rewrite app_nil_r; reflexivity). replace (off [ks1] 1) with (length ks1) in ZK by (unfold off; cbn; rewrite app_nil_r; reflexivity).
    rewrite !off_0 in ZK. eapply zips_impl; [exact ZK|]. intros a b _ _ (x & H0 & H1). cbn [expand] in H0, H1. rewrite app_nil_r in H0, H1. rewrite nth_error_map in H0, H1.
    destruct (nth_error ks0 a) as [y0|] eqn:Y0; [|discriminate]. destruct (nth_error ks1 b) as [y1|] eqn:Y1; [|discriminate]. exists y0. split; auto. cbn in *. congruence. }
  destruct (survey_ok vs0 vs1 ks0 ks1 (eq_sym (sh_vals _ _ _ HS0)) (eq_sym (sh_vals _ _ _ HS1)) (sh_vfull _ _ _ HS0) (sh_vfull _ _ _ HS1) (sh_vsorted _ _ _ HS0) (sh_vsorted _ _ _ HS1) _ _ _ _ _ ZK')
    as (VS & gV & EV & FV & ZV); [rewrite (sh_vals _ _ _ HS0); auto|rewrite (sh_vals _ _ _ HS1); auto|].
  rewrite !off_0, (off_vals _ _ _ HS0), (off_vals _ _ _ HS1) in ZV.
  destruct (survey_ok ts0 ts1 (expand ks0 vs0) (expand ks1 vs1) (vpaths_ts _ _ _ HS0) (vpaths_ts _ _ _ HS1) (sh_tfull _ _ _ HS0) (sh_tfull _ _ _ HS1) (sh_tsorted _ _ _ HS0) (sh_tsorted _ _ _ HS1) _ _ _ _ _ ZV)
    as (TS & gT & ET & FT & ZT); [rewrite (sh_times _ _ _ HS0); auto|rewrite (sh_times _ _ _ HS1); auto|].
  pose proof ZT as ZT2. fold (paths ks0 vs0 ts0) (paths ks1 vs1 ts1) in ZT. rewrite !off_0, (off_times _ _ _ HS0), (off_times _ _ _ HS1), E0, E1, <- (len_us _ _ _ _ HS0 E0), <- (len_us _ _ _ _ HS1 E1) in ZT.
  exists KS, VS, TS, gK, gV, gT. repeat (split; auto).
  destruct (refines_expand ts0 ts1 _ _ (vpaths_ts _ _ _ HS0) (vpaths_ts _ _ _ HS1) _ _ _ (full_refines _ _ _ _ _ FT) _ _ _ _ ZV) as [XT _]; [rewrite (sh_times _ _ _ HS0); auto|rewrite (sh_times _ _ _ HS1); auto|].
  fold (paths ks0 vs0 ts0) (paths ks1 vs1 ts1) in XT. rewrite E0, E1 in XT. rewrite <- XT. apply expand_sorted.
  - destruct (refines_expand vs0 vs1 ks0 ks1 (eq_sym (sh_vals _ _ _ HS0)) (eq_sym (sh_vals _ _ _ HS1)) _ _ _ (full_refines _ _ _ _ _ FV) _ _ _ _ ZK') as [XV _]; [rewrite (sh_vals _ _ _ HS0); auto|rewrite (sh_vals _ _ _ HS1); auto|].
    rewrite <- XV. apply expand_sorted; [|eapply refines_groups; [| | | |apply full_refines; exact FV]; apply HS0 || apply HS1].
    assert (F2 : Forall strictly_sorted gK) by (eapply refines_groups; [| | | |apply full_refines; exact FK]; repeat constructor; auto; [apply HS0|apply HS1]).
    inversion FK as [| | |i j s S S' gs Hi Hj Hz Hs HF]; subst. inversion HF; subst. rewrite app_nil_r. cbn [concat] in F2. rewrite !app_nil_r in F2. inversion F2; subst. auto.
  - eapply refines_groups; [| | | |apply full_refines; exact FT]; apply HS0 || apply HS1.
Qed.
End Two.

(** What a merge gives: the consolidation of the first updates of each input, up to some place, and the rest of the inputs. *)
Definition merged (us0 us1 : list U) (res : Upd * option ((nat * nat * nat) * Upd) * option ((nat * nat * nat) * Upd)) (a b : nat) : Prop :=
  let '(out, c0, c1) := res in
  a <= length us0 /\ b <= length us1 /\
  (exists o rows, without_empty out = Some o /\ holds o rows /\ consolidated (A:=K*V*T) rows /\ same_weights (A:=K*V*T) rows (firstn a us0 ++ firstn b us1) /\ length rows <= a + b) /\
  (forall x y, In x (firstn a us0) -> In y (skipn b us1) -> lt (A:=K*V*T) (fst x) (fst y)) /\ (forall x y, In x (firstn b us1) -> In y (skipn a us0) -> lt (A:=K*V*T) (fst x) (fst y)) /\
  (forall x, In x (firstn a us0) -> exists y, In y us1 /\ le (A:=K*V*T) (fst x) (fst y)) /\ (forall x, In x (firstn b us1) -> exists y, In y us0 /\ le (A:=K*V*T) (fst x) (fst y)) /\
  (a = length us0 \/ b = length us1) /\
  (if a =? length us0 then c0 = None else exists cu u s, c0 = Some (cu, u) /\ suffix_chunk cu u = Some s /\ holds s (skipn a us0)) /\
  (if b =? length us1 then c1 = None else exists cu u s, c1 = Some (cu, u) /\ suffix_chunk cu u = Some s /\ holds s (skipn b us1)).

Lemma in_map_sub (us : list U) a b x : In x (sub us a b) -> In (fst x) (sub (map fst us) a b).
Proof. intros H. rewrite <- map_sub. apply in_map. auto. Qed.
Lemma map_sub_in (us : list U) a b y : In y (sub (map fst us) a b) -> exists x, In x (sub us a b) /\ fst x = y.
Proof. rewrite <- map_sub. intros H. apply in_map_iff in H as (x & E & H). eauto. Qed.

Lemma merge_pair_ok u0 us0 u1 us1 : holds u0 us0 -> holds u1 us1 -> us0 <> [] -> us1 <> [] ->
  Forall (fun x => is_zero (snd x) = false) us0 -> Forall (fun x => is_zero (snd x) = false) us1 ->
  exists res a b, merge_pair ((0, 0, 0), u0) ((0, 0, 0), u1) = Some res /\ merged us0 us1 res a b.
Proof.
  intros (ks0 & vs0 & ts0 & HS0 & -> & E0) (ks1 & vs1 & ts1 & HS1 & -> & E1) N0 N1 Z0 Z1.
  destruct (surveys ks0 vs0 ts0 us0 HS0 E0 N0 ks1 vs1 ts1 us1 HS1 E1 N1) as (KS & VS & TS & gK & gV & gT & EK & EV & ET & FK & FV & FT & ZK & ZV & ZT & ST).
  pose proof (keys_nonempty _ _ _ _ HS0 E0 N0) as NK0. pose proof (keys_nonempty _ _ _ _ HS1 E1 N1) as NK1.
  pose proof (len_us _ _ _ _ HS0 E0) as L0. pose proof (len_us _ _ _ _ HS1 E1) as L1.
  assert (Hn0 : 0 < length us0) by (destruct us0; [congruence|cbn; lia]). assert (Hn1 : 0 < length us1) by (destruct us1; [congruence|cbn; lia]).
  assert (SZ : forall A (X0 X1 : list A) p p' q q' s, zips (same X0 X1) p p' q q' s -> zips (same X1 X0) q q' p p' (swap s)) by (intros; eapply zips_swap; [|eassumption]; intros; apply same_swap; auto).
  destruct (facts_this (map fst us0) (map fst us1) TS (length us0) (length us1) ZT ST Hn1) as (A1 & A2 & A3 & A4 & A5); [rewrite map_length; auto|rewrite map_length; auto|].
  destruct (facts_this (map fst us1) (map fst us0) (swap TS) (length us1) (length us0)) as (B1 & B2 & B3 & B4 & B5); auto; try (rewrite map_length; auto); [rewrite (read_swap _ _ _ _ _ _ _ ZT); auto|].
  assert (T0 : length (ls_values (u_times (cols ks0 vs0 ts0 (singles us0)))) = length us0) by (rewrite L0; reflexivity).
  assert (T1 : length (ls_values (u_times (cols ks1 vs1 ts1 (singles us1)))) = length us1) by (rewrite L1; reflexivity).
  assert (K0 : length (ls_values (u_keys (cols ks0 vs0 ts0 (singles us0)))) = length ks0) by (cbn [cols u_keys]; rewrite root_one by auto; cbn; rewrite app_nil_r; reflexivity).
  assert (K1 : length (ls_values (u_keys (cols ks1 vs1 ts1 (singles us1)))) = length ks1) by (cbn [cols u_keys]; rewrite root_one by auto; cbn; rewrite app_nil_r; reflexivity).
  assert (GK0 : Forall (fun g : list K => g <> []) [ks0]) by (repeat constructor; auto). assert (GK1 : Forall (fun g : list K => g <> []) [ks1]) by (repeat constructor; auto).
  unfold merge_pair. rewrite EK, EV, ET. cbn [nudge_all Nat.eqb andb]. clear EK EV ET.
  destruct TS as [|r TS0 _] using rev_ind; [inversion ZT; lia|]. rewrite rev_app_distr. cbn [rev app]. set (TS := TS0 ++ [r]) in *.
  destruct r as [l u|l u|i j].
  - (* the rest of the first input *)
    set (a := stop0 0 (trimmed is_this TS)) in *.
    assert (La : a < length us0).
    { destruct (Nat.eq_dec a (length us0)) as [Ea|]; [|lia]. exfalso. unfold TS in ZT. apply zips_app in ZT as (p1 & q1 & Za & Zb). inversion Zb; subst.
      match goal with H : zips _ _ _ _ _ [] |- _ => inversion H; subst end. pose proof (stop_le _ _ _ _ _ _ is_this Za) as Ls.
      assert (a = stop0 0 (trimmed is_this TS0)) by (unfold a, TS; rewrite trimmed_app; reflexivity). lia. }
    destruct (cursor_ok ks0 vs0 ts0 vs1 ts1 KS VS TS gV gT _ _ _ _ _ _ HS0 (sh_vfull _ _ _ HS1) (sh_tfull _ _ _ HS1) FV FT ZK ZV (eq_ind _ (fun n => zips _ 0 n 0 _ TS) ZT _ L0)) as (v & k & Ev & Ek & Pv & Pk); [fold a; lia|]. fold a in Ev, Pv.
    unfold trim. rewrite T0, K0. change (ls_values (u_vals (cols ks0 vs0 ts0 (singles us0)))) with (concat vs0).
    rewrite (trim_this_ok _ _ _ _ _ _ ZT), (trim_this_ok _ _ _ _ _ _ ZV), (trim_this_ok _ _ _ _ _ _ ZK). cbn [cols u_times u_vals]. fold a. rewrite Ev, Ek, !rev_involutive.
    destruct (trim_refines [ks0] [ks1] GK1 _ _ _ FK) as (gK' & RK). change (trimmed is_this [Both 0 0]) with [Both 0 0] in RK.
    destruct (trim_refines vs0 vs1 (sh_vfull _ _ _ HS1) _ _ _ FV) as (gV' & RV). destruct (trim_refines ts0 ts1 (sh_tfull _ _ _ HS1) _ _ _ FT) as (gT' & RT).
    destruct (zips_trimmed _ _ _ _ _ _ is_this ZK) as (ka & kb & ZK' & BK0 & BK1). destruct (zips_trimmed _ _ _ _ _ _ is_this ZV) as (va & vb & ZV' & BV0 & BV1).
    destruct (written ks0 vs0 ts0 us0 HS0 E0 N0 ks1 vs1 ts1 us1 HS1 E1 N1 _ _ _ _ _ _ a (length us1) _ _ _ _ RK RV RT ZK' BK0 BK1 ZV' BV0 BV1 A1 A2 (Nat.le_refl _) Z0 Z1) as (out & o & rows & WO & Wo & Ho & Hc & Hw & Hl).
    rewrite WO. exists (out, Some ((k, v, a), cols ks0 vs0 ts0 (singles us0)), None), a, (length us1). split; [reflexivity|].
    assert (F1 : firstn (length us1) us1 = us1) by apply firstn_all. assert (F2 : skipn (length us1) us1 = []) by apply skipn_all.
    assert (D : exists y, In y (skipn a us0)) by (destruct (skipn a us0) as [|y r0] eqn:Es; [assert (length (skipn a us0) = 0) by (rewrite Es; reflexivity); rewrite skipn_length in *; lia|exists y; left; reflexivity]).
    assert (ORD : forall x y, In x us1 -> In y (skipn a us0) -> lt (A:=K*V*T) (fst x) (fst y)).
    { intros x y Hx Hy. apply A4; apply in_map_sub; [rewrite sub_all|rewrite sub_skipn]; auto. }
    split; [lia|]. split; [lia|]. split; [exists o, rows; auto|]. rewrite F1, F2. split; [intros x y _ []|]. split; [exact ORD|]. split; [|split; [|split; [auto|split]]].
    + intros x Hx. destruct (A5 (fst x)) as (y & Hy & Hxy); [apply in_map_sub; rewrite sub_0; auto|]. apply map_sub_in in Hy as (z & Hz & <-). rewrite sub_all in Hz. eauto.
    + intros x Hx. destruct D as (y & Hy). exists y. split; [|apply lt_le; auto]. rewrite <- (firstn_skipn a us0). apply in_or_app. auto.
    + rewrite (proj2 (Nat.eqb_neq _ _)) by lia. destruct (suffix_ok ks0 vs0 ts0 us0 k v a HS0 E0 Pv Pk) as (s & Es & Hs). eauto 6.
    + rewrite Nat.eqb_refl. reflexivity.
  - (* the rest of the second input *)
    set (b := stop0 0 (trimmed is_this (swap TS))) in *.
    assert (Lb : b < length us1).
    { destruct (Nat.eq_dec b (length us1)) as [Eb|]; [|lia]. exfalso. unfold TS in ZT. apply zips_app in ZT as (p1 & q1 & Za & Zb). inversion Zb; subst.
      match goal with H : zips _ _ _ _ _ [] |- _ => inversion H; subst end. apply SZ in Za. pose proof (stop_le _ _ _ _ _ _ is_this Za) as Ls.
      assert (b = stop0 0 (trimmed is_this (swap TS0))) by (unfold b, TS; rewrite swap_app; cbn [swap map swap_one]; rewrite trimmed_app; reflexivity). lia. }
    destruct (cursor_ok ks1 vs1 ts1 vs0 ts0 (swap KS) (swap VS) (swap TS) gV gT _ _ _ _ _ _ HS1 (sh_vfull _ _ _ HS0) (sh_tfull _ _ _ HS0) (full_swap _ _ _ _ _ FV) (full_swap _ _ _ _ _ FT) (SZ _ _ _ _ _ _ _ _ ZK) (SZ _ _ _ _ _ _ _ _ ZV)
      (eq_ind _ (fun n => zips _ 0 n 0 _ (swap TS)) (SZ _ _ _ _ _ _ _ _ ZT) _ L1)) as (v & k & Ev & Ek & Pv & Pk); [fold b; lia|]. fold b in Ev, Pv.
    unfold trim. rewrite T1, K1. change (ls_values (u_vals (cols ks1 vs1 ts1 (singles us1)))) with (concat vs1).
    rewrite (trim_that_ok _ _ _ _ _ _ ZT), (trim_that_ok _ _ _ _ _ _ ZV), (trim_that_ok _ _ _ _ _ _ ZK). cbn [cols u_times u_vals]. fold b. rewrite Ev, Ek, !rev_involutive.
    assert (TR : forall A (OA : Ord A) (X0 X1 : list (list A)) s s' gs, Forall (fun g => g <> []) X0 -> Forall (fun g => g <> []) X1 -> full X0 X1 s s' gs -> exists gs', refines X0 X1 (trimmed is_that s) (trimmed is_that s') gs').
    { intros A OA X0 X1 s s' gs G0 G1 HF. apply full_swap in HF. destruct (trim_refines X1 X0 G0 _ _ _ HF) as (gs' & HR). exists gs'. rewrite !trimmed_swap. apply refines_swap. auto. }
    destruct (TR _ _ _ _ _ _ _ GK0 GK1 FK) as (gK' & RK). change (trimmed is_that [Both 0 0]) with [Both 0 0] in RK.
    destruct (TR _ _ _ _ _ _ _ (sh_vfull _ _ _ HS0) (sh_vfull _ _ _ HS1) FV) as (gV' & RV). destruct (TR _ _ _ _ _ _ _ (sh_tfull _ _ _ HS0) (sh_tfull _ _ _ HS1) FT) as (gT' & RT).
    destruct (zips_trimmed _ _ _ _ _ _ is_that ZK) as (ka & kb & ZK' & BK0 & BK1). destruct (zips_trimmed _ _ _ _ _ _ is_that ZV) as (va & vb & ZV' & BV0 & BV1).
    apply SZ in B1. rewrite <- trimmed_swap in B1.
    destruct (written ks0 vs0 ts0 us0 HS0 E0 N0 ks1 vs1 ts1 us1 HS1 E1 N1 _ _ _ _ _ _ (length us0) b _ _ _ _ RK RV RT ZK' BK0 BK1 ZV' BV0 BV1 B1 (Nat.le_refl _) B2 Z0 Z1) as (out & o & rows & WO & Wo & Ho & Hc & Hw & Hl).
    rewrite WO. exists (out, None, Some ((k, v, b), cols ks1 vs1 ts1 (singles us1))), (length us0), b. split; [reflexivity|].
    assert (F1 : firstn (length us0) us0 = us0) by apply firstn_all. assert (F2 : skipn (length us0) us0 = []) by apply skipn_all.
    assert (D : exists y, In y (skipn b us1)) by (destruct (skipn b us1) as [|y r0] eqn:Es; [assert (length (skipn b us1) = 0) by (rewrite Es; reflexivity); rewrite skipn_length in *; lia|exists y; left; reflexivity]).
    assert (ORD : forall x y, In x us0 -> In y (skipn b us1) -> lt (A:=K*V*T) (fst x) (fst y)).
    { intros x y Hx Hy. apply B4; apply in_map_sub; [rewrite sub_all|rewrite sub_skipn]; auto. }
    split; [lia|]. split; [lia|]. split; [exists o, rows; auto|]. rewrite F1, F2. split; [exact ORD|]. split; [intros x y _ []|]. split; [|split; [|split; [auto|split]]].
    + intros x Hx. destruct D as (y & Hy). exists y. split; [|apply lt_le; auto]. rewrite <- (firstn_skipn b us1). apply in_or_app. auto.
    + intros x Hx. destruct (B5 (fst x)) as (y & Hy & Hxy); [apply in_map_sub; rewrite sub_0; auto|]. apply map_sub_in in Hy as (z & Hz & <-). rewrite sub_all in Hz. eauto.
    + rewrite Nat.eqb_refl. reflexivity.
    + rewrite (proj2 (Nat.eqb_neq _ _)) by lia. destruct (suffix_ok ks1 vs1 ts1 us1 k v b HS1 E1 Pv Pk) as (s & Es & Hs). eauto 6.
  - (* both inputs end together *)
    assert (Ea : stop0 0 (trimmed is_this TS) = length us0) by (unfold TS; rewrite trimmed_none by reflexivity; apply (zips_stop _ _ _ _ _ _ ZT)).
    assert (Eb : stop0 0 (trimmed is_this (swap TS)) = length us1).
    { unfold TS. rewrite swap_app. cbn [swap map swap_one]. rewrite trimmed_none by reflexivity. pose proof (SZ _ _ _ _ _ _ _ _ ZT) as ZT'. unfold TS in ZT'. rewrite swap_app in ZT'. apply (zips_stop _ _ _ _ _ _ ZT'). }
    rewrite Ea, Eb in *.
    destruct (written ks0 vs0 ts0 us0 HS0 E0 N0 ks1 vs1 ts1 us1 HS1 E1 N1 _ _ _ _ _ _ (length us0) (length us1) _ _ _ _ (full_refines _ _ _ _ _ FK) (full_refines _ _ _ _ _ FV) (full_refines _ _ _ _ _ FT)
      ZK (Nat.le_refl _) (Nat.le_refl _) ZV (Nat.le_refl _) (Nat.le_refl _) ZT (Nat.le_refl _) (Nat.le_refl _) Z0 Z1) as (out & o & rows & WO & Wo & Ho & Hc & Hw & Hl).
    rewrite WO. exists (out, None, None), (length us0), (length us1). split; [reflexivity|]. split; [lia|]. split; [lia|]. split; [exists o, rows; auto|].
    rewrite !firstn_all, !skipn_all, !Nat.eqb_refl. split; [intros x y _ []|]. split; [intros x y _ []|]. split; [|split; [|auto]].
    + intros x Hx. destruct (A5 (fst x)) as (y & Hy & Hxy); [apply in_map_sub; rewrite sub_all; auto|]. apply map_sub_in in Hy as (z & Hz & <-). rewrite sub_all in Hz. eauto.
    + intros x Hx. destruct (B5 (fst x)) as (y & Hy & Hxy); [apply in_map_sub; rewrite sub_all; auto|]. apply map_sub_in in Hy as (z & Hz & <-). rewrite sub_all in Hz. eauto.
Qed.
End Pair.
