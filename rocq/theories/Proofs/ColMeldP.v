(** * Melding one columnar trie after another, and reading one back *)
From Coq Require Import Arith Lia.
From Verif Require Import Base.Arrays Base.Collections Spec.Collection Model.ColumnarM Proofs.ColListsP Proofs.ColSurveyP Proofs.ColTrieP.
From Verif Require Import Base.Order.

Lemma sorted_join {X} {OX : Ord X} (a b : list X) x y : strictly_sorted (a ++ [x]) -> strictly_sorted (y :: b) -> lt x y -> strictly_sorted ((a ++ [x]) ++ y :: b).
Proof.
  intros Ha Hb Hxy. apply strictly_sorted_app. split; auto. split; auto. intros z w Hz Hw.
  assert (Zx : le z x).
  { apply in_app_or in Hz as [Hz|[->|[]]]; [|apply le_refl]. apply strictly_sorted_app in Ha as (_ & _ & H). apply lt_le, H; auto. left; reflexivity. }
  assert (Yw : le y w).
  { destruct Hw as [->|Hw]; [apply le_refl|]. apply strictly_sorted_cons_inv in Hb as [_ Hb]. rewrite Forall_forall in Hb. apply lt_le; auto. }
  eapply le_lt_trans; [exact Zx|]. eapply lt_le_trans; [exact Hxy|exact Yw].
Qed.
(* the last item of the one is the first of the other *)
Lemma sorted_share {X} {OX : Ord X} (a b : list X) x : strictly_sorted (a ++ [x]) -> strictly_sorted (x :: b) -> strictly_sorted ((a ++ [x]) ++ b).
Proof.
  intros Ha Hb. destruct b as [|y b]; [rewrite app_nil_r; auto|]. apply strictly_sorted_cons_inv in Hb as [Hb HF]. inversion HF; subst. apply sorted_join; auto.
Qed.
Lemma seal_unopened {X} (gs : list (list X)) : gs <> [] -> seal_list (open_list (lists_of gs)) = lists_of gs.
Proof. intros H. destruct gs as [|g gs _] using rev_ind; [congruence|]. rewrite open_lists, seal_open. reflexivity. Qed.
Lemma expand_share {A X} (P P2 : list A) p (gs gs2 : list (list X)) g h : length P = length gs ->
  expand ((P ++ [p]) ++ P2) (gs ++ (g ++ h) :: gs2) = expand (P ++ [p]) (gs ++ [g]) ++ expand (p :: P2) (h :: gs2).
Proof.
  intros HL. rewrite <- app_assoc, expand_app by auto. rewrite expand_app by auto. cbn [expand app]. rewrite app_nil_r, map_app, <- !app_assoc. reflexivity.
Qed.
Lemma meets_ok {X} {OX : Ord X} (l chunk : Lists X) a x y b : ls_values l = a ++ [x] -> ls_values chunk = y :: b -> meets l chunk = Some (eqb x y).
Proof.
  intros E1 E2. unfold meets. rewrite E1, E2, app_length, Nat.add_comm. cbn [length Nat.add]. unfold get. rewrite nth_error_app2, Nat.sub_diag by lia. reflexivity.
Qed.

Section Meld.
Context {K V T R : Type} {OK : Ord K} {OV : Ord V} {TT : Time T} {DR : Diff R}.
Local Notation U := (K * V * T * R)%type.
Local Notation Upd := (Updates K V T R).
Lemma lex_cases (k k2 : K) (v v2 : V) (t t2 : T) : lt (A:=K*V*T) (k, v, t) (k2, v2, t2) -> lt k k2 \/ k = k2 /\ lt v v2 \/ k = k2 /\ v = v2 /\ lt t t2.
Proof. rewrite !lt_pair. intros [[H|[-> H]]|[E H]]; auto. inversion E; subst. auto. Qed.

Lemma shaped_last ks vs ts : shaped (K:=K) (V:=V) (T:=T) ks vs ts -> ts <> [] -> exists ks' k vs' vg v ts' tg t,
  ks = ks' ++ [k] /\ vs = vs' ++ [vg ++ [v]] /\ ts = ts' ++ [tg ++ [t]] /\ length vs' = length ks' /\ length ts' = length (concat vs') + length vg /\
  paths ks vs ts = expand (expand ks' vs' ++ map (pair k) vg) ts' ++ map (pair (k, v)) tg ++ [(k, v, t)].
Proof.
  intros HS Hn. destruct ts as [|tl ts' _] using rev_ind; [congruence|]. pose proof (sh_tfull _ _ _ HS) as Ft. apply Forall_app in Ft as [_ Ft]. inversion Ft as [|? ? Ht _]; subst.
  destruct tl as [|t tg _] using rev_ind; [congruence|]. pose proof (sh_times _ _ _ HS) as Lt. rewrite app_length in Lt. cbn in Lt.
  destruct vs as [|vl vs' _] using rev_ind; [cbn in Lt; lia|]. pose proof (sh_vfull _ _ _ HS) as Fv. apply Forall_app in Fv as [_ Fv]. inversion Fv as [|? ? Hv _]; subst.
  destruct vl as [|v vg _] using rev_ind; [congruence|]. pose proof (sh_vals _ _ _ HS) as Lv. rewrite app_length in Lv. cbn in Lv.
  destruct ks as [|k ks' _] using rev_ind; [cbn in Lv; lia|]. rewrite app_length in Lv. cbn in Lv. rewrite concat_app, !app_length in Lt. cbn in Lt. rewrite app_nil_r, app_length in Lt. cbn in Lt.
  exists ks', k, vs', vg, v, ts', tg, t. repeat split; auto; try lia. unfold paths. rewrite expand_app by lia. cbn [expand]. rewrite app_nil_r, map_app. cbn [map]. rewrite app_assoc.
  rewrite expand_app by (rewrite app_length, map_length, expand_length; lia). cbn [expand]. rewrite app_nil_r, map_app. reflexivity.
Qed.
Lemma shaped_first ks vs ts : shaped (K:=K) (V:=V) (T:=T) ks vs ts -> ts <> [] -> exists ks' k vs' vg v ts' tg t,
  ks = k :: ks' /\ vs = (v :: vg) :: vs' /\ ts = (t :: tg) :: ts' /\ length vs' = length ks' /\ length ts' = length vg + length (concat vs') /\
  exists P, paths ks vs ts = (k, v, t) :: P.
Proof.
  intros HS Hn. destruct ts as [|tl ts']; [congruence|]. pose proof (sh_tfull _ _ _ HS) as Ft. inversion Ft as [|? ? Ht _]; subst.
  destruct tl as [|t tg]; [congruence|]. pose proof (sh_times _ _ _ HS) as Lt. cbn in Lt.
  destruct vs as [|vl vs']; [cbn in Lt; lia|]. pose proof (sh_vfull _ _ _ HS) as Fv. inversion Fv as [|? ? Hv _]; subst.
  destruct vl as [|v vg]; [congruence|]. pose proof (sh_vals _ _ _ HS) as Lv. cbn in Lv.
  destruct ks as [|k ks']; [cbn in Lv; lia|]. cbn in Lv, Lt. rewrite app_length in Lt.
  exists ks', k, vs', vg, v, ts', tg, t. repeat split; auto; try lia. eexists. unfold paths. cbn [expand map app]. reflexivity.
Qed.
Lemma holds_times u us : holds (K:=K) (V:=V) (T:=T) (R:=R) u us -> us <> [] -> forall ks vs ts, shaped ks vs ts -> paths ks vs ts = map fst us -> ts <> [].
Proof. intros _ Hn ks vs ts HS E ->. destruct (shaped_nil _ _ _ HS eq_refl) as [-> ->]. destruct us; [congruence|discriminate]. Qed.

Lemma meld_pair_ok u us c cs : holds (K:=K) (V:=V) (T:=T) (R:=R) u us -> holds c cs -> strictly_sorted (map fst (us ++ cs)) ->
  exists u', meld_pair u c = Some u' /\ holds u' (us ++ cs).
Proof.
  intros Hu Hc HO. unfold meld_pair, meld. rewrite (holds_len _ _ Hc).
  destruct cs as [|c0 cs0].
  { cbn [length Nat.eqb]. eexists. split; [reflexivity|]. rewrite app_nil_r. assert (E : builder_done (builder_from u) = u); [|rewrite E; auto].
    destruct Hu as (ks & vs & ts & HS & -> & E). unfold builder_from, cols. cbn [u_keys]. change (ls_values (lists_of (root ks))) with (concat (root ks)). rewrite concat_root.
    destruct (Nat.ltb_spec 0 (length ks)) as [L|L].
    - unfold builder_done, unseal. cbn [u_keys u_vals u_times u_diffs]. change (ls_values (open_list (lists_of (root ks)))) with (concat (root ks)). rewrite concat_root. rewrite (proj2 (Nat.ltb_lt _ _) L).
      assert (ts <> []) by (intros ->; destruct (shaped_nil _ _ _ HS eq_refl) as [-> _]; cbn in L; lia).
      rewrite !seal_unopened; auto; [intros ->; pose proof (sh_times _ _ _ HS) as HT; destruct ts; [congruence|discriminate]|destruct ks; [cbn in L; lia|discriminate]].
    - unfold builder_done. cbn [u_keys]. change (ls_values (lists_of (root ks))) with (concat (root ks)). rewrite concat_root. rewrite (proj2 (Nat.ltb_ge _ _)) by lia. reflexivity. }
  remember (c0 :: cs0) as cs. assert (Hcn : cs <> []) by (subst; discriminate). clear c0 cs0 Heqcs.
  replace (length cs =? 0) with false by (destruct cs; [congruence|reflexivity]).
  destruct Hu as (ks & vs & ts & HS & -> & E). destruct Hc as (ks2 & vs2 & ts2 & HS2 & -> & E2).
  assert (Hts2 : ts2 <> []) by (intros ->; destruct (shaped_nil _ _ _ HS2 eq_refl) as [-> ->]; destruct cs; [congruence|discriminate]).
  destruct us as [|u0 us0].
  { destruct ks as [|k ks]; [|exfalso]; [|destruct (Nat.eq_dec (length (paths (k :: ks) vs ts)) 0) as [Z|Z]; [|rewrite E in Z; cbn in Z; lia]].
    - cbn [app]. unfold builder_from. cbn [cols u_keys lists_of root ls_values concat length Nat.ltb Nat.leb Nat.eqb].
      eexists. split; [reflexivity|]. destruct (shaped_first _ _ _ HS2 Hts2) as (ks2' & k2 & vs2' & vg2 & v2 & ts2' & tg2 & t2 & -> & -> & -> & _).
      exists (k2 :: ks2'), ((v2 :: vg2) :: vs2'), ((t2 :: tg2) :: ts2'). split; auto. split; auto. unfold builder_done, unseal, cols. cbn [u_keys u_vals u_times u_diffs root].
      cbn [ls_values lists_of concat app length open_list]. rewrite (proj2 (Nat.ltb_lt _ _)) by lia. f_equal; apply seal_unopened; discriminate.
    - rewrite (paths_length _ _ _ HS) in Z. destruct (shaped_first _ _ _ HS) as (a1 & a2 & a3 & a4 & a5 & a6 & a7 & a8 & _ & _ & -> & _); [|cbn in Z; lia].
      intros ->. destruct (shaped_nil _ _ _ HS eq_refl). discriminate. }
  remember (u0 :: us0) as us. assert (Hun : us <> []) by (subst; discriminate). clear u0 us0 Hequs.
  assert (Hts : ts <> []) by (intros ->; destruct (shaped_nil _ _ _ HS eq_refl) as [-> ->]; destruct us; [congruence|discriminate]).
  destruct (shaped_last _ _ _ HS Hts) as (ks' & k & vs' & vg & v & ts' & tg & t & Ek & Ev & Et & Lv & Lt & EP).
  destruct (shaped_first _ _ _ HS2 Hts2) as (ks2' & k2 & vs2' & vg2 & v2 & ts2' & tg2 & t2 & Ek2 & Ev2 & Et2 & Lv2 & Lt2 & P2 & EP2).
  assert (HL : lt (A:=K*V*T) (k, v, t) (k2, v2, t2)).
  { rewrite map_app, <- E, <- E2, EP, EP2, app_assoc in HO. apply strictly_sorted_app in HO as (_ & _ & HO). apply HO; [apply in_or_app; right; left; reflexivity|left; reflexivity]. }
  apply lex_cases in HL.
  pose proof (sh_keys _ _ _ HS) as SK. pose proof (sh_vsorted _ _ _ HS) as SV. pose proof (sh_tsorted _ _ _ HS) as ST. pose proof (sh_vfull _ _ _ HS) as FV. pose proof (sh_tfull _ _ _ HS) as FT.
  pose proof (sh_keys _ _ _ HS2) as SK2. pose proof (sh_vsorted _ _ _ HS2) as SV2. pose proof (sh_tsorted _ _ _ HS2) as ST2. pose proof (sh_vfull _ _ _ HS2) as FV2. pose proof (sh_tfull _ _ _ HS2) as FT2.
  pose proof (vpaths_ts _ _ _ HS) as LP. pose proof (vpaths_ts _ _ _ HS2) as LP2.
  assert (Dl : length (singles cs) = length (concat ts2)) by (rewrite singles_length, <- (paths_length _ _ _ HS2), E2, map_length; auto).
  unfold builder_from. cbn [cols u_keys]. change (ls_values (lists_of (root ks))) with (concat (root ks)). rewrite concat_root.
  replace (0 <? length ks) with true by (rewrite Ek, app_length, Nat.add_comm; reflexivity).
  unfold unseal. cbn [cols u_keys u_vals u_times u_diffs]. change (ls_values (open_list (lists_of (root ks)))) with (concat (root ks)). rewrite concat_root.
  replace (length ks =? 0) with false by (rewrite Ek, app_length, Nat.add_comm; reflexivity).
  rewrite (meets_ok _ (lists_of (root ks2)) ks' k k2 ks2') by (try (cbn [open_list ls_values lists_of]); rewrite concat_root; auto).
  change (ls_values (lists_of (root ks2))) with (concat (root ks2)). rewrite concat_root. change (ls_values (lists_of vs2)) with (concat vs2). change (ls_values (lists_of ts2)) with (concat ts2).
  rewrite (child_range_ok vs2 0), (child_range_ok ts2 0) by (subst; cbn; lia). rewrite !off_0.
  assert (Ov : off vs2 1 = S (length vg2)) by (subst; unfold off; cbn; rewrite app_nil_r; reflexivity).
  assert (Ot : off ts2 1 = S (length tg2)) by (subst; unfold off; cbn; rewrite app_nil_r; reflexivity).
  assert (RK' : forall l, root (ks ++ l) = [] ++ [ks ++ l]) by (intros l; rewrite Ek; destruct ks'; reflexivity).
  assert (RK : root ks = [] ++ [ks]) by (rewrite <- (app_nil_r ks); apply RK').
  assert (KO : open_list (lists_of (root ks)) = open_of [] ks) by (rewrite RK; apply (open_lists [] ks)).
  assert (VO : open_list (lists_of vs) = open_of vs' (vg ++ [v])) by (rewrite Ev; apply open_lists).
  assert (TO : open_list (lists_of ts) = open_of ts' (tg ++ [t])) by (rewrite Et; apply open_lists).
  assert (KK : forall l, seal_list (push_values (open_of [] ks) l) = lists_of (root (ks ++ l))).
  { intros l. rewrite push_values_open, seal_open, RK'. reflexivity. }
  assert (KL : forall l, 0 <? length (ls_values (push_values (open_of [] ks) l)) = true).
  { intros l. apply Nat.ltb_lt. rewrite Ek. cbn [push_values open_of ls_values concat app]. rewrite !app_length. cbn. lia. }
  rewrite extend_ok by lia. rewrite KO, VO, TO. rewrite <- Dl, sub_all.
  assert (DS : lists_of (singles us ++ singles cs) = lists_of (singles (us ++ cs))) by (rewrite singles_app; reflexivity).
  assert (VOL : forall l lo hi, lo < hi -> hi <= length vs2 -> meld_lists (open_of vs' l) (lists_of vs2) lo hi = Some (open_list (lists_of ((vs' ++ [l]) ++ sub vs2 lo hi)))).
  { intros l lo hi H1 H2. unfold meld_lists. rewrite seal_open, extend_ok by lia. reflexivity. }
  assert (TOL : forall l lo hi, lo < hi -> hi <= length ts2 -> meld_lists (open_of ts' l) (lists_of ts2) lo hi = Some (open_list (lists_of ((ts' ++ [l]) ++ sub ts2 lo hi)))).
  { intros l lo hi H1 H2. unfold meld_lists. rewrite seal_open, extend_ok by lia. reflexivity. }
  assert (NV : forall l x, (vs' ++ [l]) ++ x <> []) by (intros l x; destruct vs'; discriminate).
  assert (NT : forall l x, (ts' ++ [l]) ++ x <> []) by (intros l x; destruct ts'; discriminate).
  pose proof (sh_vals _ _ _ HS) as HV. pose proof (sh_times _ _ _ HS) as HT. pose proof (sh_vals _ _ _ HS2) as HV2. pose proof (sh_times _ _ _ HS2) as HT2.
  assert (TA : meld_lists (open_of ts' (tg ++ [t])) (lists_of ts2) 0 (length (concat vs2)) = Some (open_list (lists_of (ts ++ ts2)))).
  { rewrite TOL by (rewrite ?HT2, ?Ev2; cbn; lia). rewrite <- HT2, sub_all, Et. reflexivity. }
  assert (VR : forall l, exists x, (if 1 <? length ks2 then meld_lists (open_of vs' l) (lists_of vs2) 1 (length ks2) else Some (open_of vs' l)) = Some x /\ seal_list x = lists_of (vs' ++ l :: vs2')).
  { intros l. destruct (Nat.ltb_spec 1 (length ks2)) as [L|L].
    - rewrite VOL by lia. eexists. split; [reflexivity|]. rewrite seal_unopened by auto. rewrite <- HV2, sub_skipn, Ev2, <- app_assoc. reflexivity.
    - eexists. split; [reflexivity|]. rewrite seal_open. replace vs2' with (@nil (list V)); [reflexivity|]. rewrite Ek2 in L. destruct vs2'; auto. destruct ks2'; cbn in *; lia. }
  assert (TR : forall l, exists x, (if 1 <? length (concat vs2) then meld_lists (open_of ts' l) (lists_of ts2) 1 (length (concat vs2)) else Some (open_of ts' l)) = Some x /\ seal_list x = lists_of (ts' ++ l :: ts2')).
  { intros l. destruct (Nat.ltb_spec 1 (length (concat vs2))) as [L|L].
    - rewrite TOL by lia. eexists. split; [reflexivity|]. rewrite seal_unopened by auto. rewrite <- HT2, sub_skipn, Et2, <- app_assoc. reflexivity.
    - eexists. split; [reflexivity|]. rewrite seal_open. replace ts2' with (@nil (list T)); [reflexivity|]. rewrite <- HT2, Et2 in L. destruct ts2'; auto. cbn in L. lia. }
  assert (KT : slice ks2 1 (length ks2) = Some ks2') by (rewrite slice_ok by (rewrite ?Ek2; cbn; lia); rewrite sub_skipn, Ek2; reflexivity).
  assert (KA : slice ks2 0 (length ks2) = Some ks2) by (rewrite slice_ok, sub_all by lia; reflexivity).
  assert (V0 : slice (concat vs2) 0 (off vs2 1) = Some (v2 :: vg2)).
  { rewrite slice_ok by (try apply off_le; lia). change (sub (concat vs2) 0 (off vs2 1)) with (sub (concat vs2) (off vs2 0) (off vs2 1)). rewrite (sub_group vs2 0 (v2 :: vg2)) by (rewrite Ev2; reflexivity). reflexivity. }
  assert (V1 : slice (concat vs2) (0 + 1) (off vs2 1) = Some vg2).
  { rewrite slice_ok by (rewrite ?Ov; try (rewrite <- Ov; apply off_le); lia). rewrite Ov. rewrite Ev2. cbn [concat app]. unfold sub. cbn [skipn Nat.add]. rewrite firstn_app, Nat.sub_succ, Nat.sub_0_r, Nat.sub_diag, firstn_all, app_nil_r. reflexivity. }
  assert (T0 : slice (concat ts2) 0 (off ts2 1) = Some (t2 :: tg2)).
  { rewrite slice_ok by (try apply off_le; lia). change (sub (concat ts2) 0 (off ts2 1)) with (sub (concat ts2) (off ts2 0) (off ts2 1)). rewrite (sub_group ts2 0 (t2 :: tg2)) by (rewrite Et2; reflexivity). reflexivity. }
  assert (VM : meets (open_of vs' (vg ++ [v])) (lists_of vs2) = Some (eqb v v2)).
  { apply (meets_ok _ _ (concat vs' ++ vg) v v2 (vg2 ++ concat vs2')); [cbn; rewrite app_assoc; reflexivity|rewrite Ev2; reflexivity]. }
  assert (TM : meets (open_of ts' (tg ++ [t])) (lists_of ts2) = Some (eqb t t2)).
  { apply (meets_ok _ _ (concat ts' ++ tg) t t2 (tg2 ++ concat ts2')); [cbn; rewrite app_assoc; reflexivity|rewrite Et2; reflexivity]. }
  assert (NE : forall A (OA : Ord A) (x y : A), lt x y -> eqb x y = false) by (intros A OA x y H; apply eqb_neq; intros ->; exact (lt_irrefl _ H)).
  assert (LK2 : 0 < length ks2) by (rewrite Ek2; cbn; lia).
  destruct HL as [H|[[<- H]|(<- & <- & H)]].
  - (* another key *)
    rewrite (NE _ _ _ _ H). cbn [negb]. rewrite KA, VOL by lia. rewrite TA. eexists. split; [reflexivity|].
    exists (ks ++ ks2), (vs ++ vs2), (ts ++ ts2). split; [split|split].
    + rewrite !app_length; lia.
    + rewrite concat_app, !app_length; lia.
    + rewrite Ek, Ek2 in *. apply sorted_join; auto.
    + apply Forall_app; auto.
    + apply Forall_app; auto.
    + apply Forall_app; auto.
    + apply Forall_app; auto.
    + unfold builder_done. cbn [u_keys u_vals u_times u_diffs]. rewrite KL, KK, !seal_unopened by (auto; rewrite Et; destruct ts'; discriminate).
      unfold cols. f_equal; auto. rewrite <- HV2, sub_all, Ev. reflexivity.
    + rewrite map_app, <- E, <- E2. unfold paths. rewrite expand_app by lia. apply expand_app. auto.
  - (* another value of the key *)
    rewrite eqb_refl, VM, (NE _ _ _ _ H). cbn [negb]. rewrite KT, V0, push_values_open. destruct (VR ((vg ++ [v]) ++ v2 :: vg2)) as (x & Ex & Sx). rewrite Ex, TA. eexists. split; [reflexivity|].
    assert (EV : expand (ks ++ ks2') (vs' ++ ((vg ++ [v]) ++ v2 :: vg2) :: vs2') = expand ks vs ++ expand ks2 vs2).
    { rewrite Ek, Ev, Ek2, Ev2. apply expand_share. auto. }
    exists (ks ++ ks2'), (vs' ++ ((vg ++ [v]) ++ v2 :: vg2) :: vs2'), (ts ++ ts2). split; [split|split].
    + rewrite Ek, !app_length. cbn. lia.
    + rewrite Et, Et2, concat_app. cbn [concat]. rewrite !app_length. cbn [length]. lia.
    + rewrite Ek, Ek2 in *. apply sorted_share; auto.
    + rewrite Ev, Ev2 in *. apply Forall_app in SV as [SV0 SV1]. inversion SV1; subst. inversion SV2; subst. apply Forall_app. split; auto. constructor; auto. apply sorted_join; auto.
    + apply Forall_app; auto.
    + rewrite Ev, Ev2 in *. apply Forall_app in FV as [FV0 _]. inversion FV2; subst. apply Forall_app. split; auto. constructor; auto. destruct vg; discriminate.
    + apply Forall_app; auto.
    + unfold builder_done. cbn [u_keys u_vals u_times u_diffs]. rewrite KL, KK, Sx, seal_unopened by (rewrite Et; destruct ts'; discriminate). unfold cols. f_equal. auto.
    + rewrite map_app, <- E, <- E2. unfold paths. rewrite EV. apply expand_app. auto.
  - (* another time of the value *)
    rewrite eqb_refl, VM, eqb_refl, TM, (NE _ _ _ _ H). cbn [negb]. rewrite KT, V1, T0, (push_values_open vs'), (push_values_open ts'). destruct (VR ((vg ++ [v]) ++ vg2)) as (x & Ex & Sx). rewrite Ex.
    destruct (TR ((tg ++ [t]) ++ t2 :: tg2)) as (y & Ey & Sy). rewrite Ey. eexists. split; [reflexivity|].
    assert (EV : expand (ks ++ ks2') (vs' ++ ((vg ++ [v]) ++ vg2) :: vs2') = expand ks vs ++ expand (k :: ks2') (vg2 :: vs2')).
    { rewrite Ek, Ev. apply expand_share. auto. }
    exists (ks ++ ks2'), (vs' ++ ((vg ++ [v]) ++ vg2) :: vs2'), (ts' ++ ((tg ++ [t]) ++ t2 :: tg2) :: ts2'). split; [split|split].
    + rewrite Ek, !app_length. cbn. lia.
    + rewrite concat_app. cbn [concat]. rewrite !app_length. cbn [length]. lia.
    + rewrite Ek, Ek2 in *. apply sorted_share; auto.
    + rewrite Ev, Ev2 in *. apply Forall_app in SV as [SV0 SV1]. inversion SV1; subst. inversion SV2; subst. apply Forall_app. split; auto. constructor; auto. apply sorted_share; auto.
    + rewrite Et, Et2 in *. apply Forall_app in ST as [ST0 ST1]. inversion ST1; subst. inversion ST2; subst. apply Forall_app. split; auto. constructor; auto. apply sorted_join; auto.
    + rewrite Ev, Ev2 in *. apply Forall_app in FV as [FV0 _]. inversion FV2; subst. apply Forall_app. split; auto. constructor; auto. destruct vg; discriminate.
    + rewrite Et, Et2 in *. apply Forall_app in FT as [FT0 _]. inversion FT2; subst. apply Forall_app. split; auto. constructor; auto. destruct tg; discriminate.
    + unfold builder_done. cbn [u_keys u_vals u_times u_diffs]. rewrite KL, KK, Sx, Sy. unfold cols. f_equal. auto.
    + rewrite map_app, <- E, <- E2. unfold paths. rewrite EV. 
      assert (EL : expand ks vs = (expand ks' vs' ++ map (pair k) vg) ++ [(k, v)]).
      { rewrite Ek, Ev. rewrite expand_app by auto. cbn [expand]. rewrite app_nil_r, map_app, app_assoc. reflexivity. }
      rewrite EL, Et, expand_share by (rewrite app_length, map_length, expand_length; lia). f_equal. rewrite Ek2, Ev2, Et2. reflexivity.
Qed.
End Meld.
