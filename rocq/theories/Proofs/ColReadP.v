(** * Reading a columnar trie back, its ends, and forming one *)
From Coq Require Import Arith Lia.
From Verif Require Import Base.Arrays Base.Collections Spec.Collection Model.ColumnarM Proofs.ConsolidationP Proofs.ColListsP Proofs.ColSurveyP Proofs.ColTrieP Proofs.ColMeldP.
From Verif Require Import Base.Order.

Section Read.
Context {K V T R : Type} {OK : Ord K} {OV : Ord V} {TT : Time T} {DR : Diff R}.
Local Notation U := (K * V * T * R)%type.
Local Notation Upd := (Updates K V T R).

(** ** The iterator *)
(* what the iterator needs of the lists: no order *)
Record full_lists (ks : list K) (vs : list (list V)) (ts : list (list T)) : Prop := {
  fl_vals : length vs = length ks;
  fl_times : length ts = length (concat vs);
  fl_vfull : Forall (fun g => g <> []) vs;
  fl_tfull : Forall (fun g => g <> []) ts }.
Lemma shaped_full ks vs ts : shaped (K:=K) (V:=V) (T:=T) ks vs ts -> full_lists ks vs ts.
Proof. intros []; split; auto. Qed.
Section Iter.
Context (uk : Lists K) (ks : list K) (vs : list (list V)) (ts : list (list T)) (us : list U) (HK : ls_values uk = ks) (HS : full_lists ks vs ts) (E : paths ks vs ts = map fst us).
Definition raw : Upd := {| u_keys := uk; u_vals := lists_of vs; u_times := lists_of ts; u_diffs := lists_of (singles us) |}.
Local Notation u := raw.
Lemma raw_ts : length (expand ks vs) = length ts.
Proof. rewrite expand_length by (symmetry; apply (fl_vals _ _ _ HS)). symmetry. apply (fl_times _ _ _ HS). Qed.
Definition at_ (k v t : nat) : Prop := k < length ks /\ off vs k <= v < off vs (S k) /\ off ts v <= t < off ts (S v).
Lemma len_concat_ts : length (concat ts) = length us.
Proof. rewrite <- (expand_length (expand ks vs)) by apply raw_ts. fold (paths ks vs ts). rewrite E, map_length. reflexivity. Qed.
Lemma at_v k v t : at_ k v t -> v < length ts.
Proof. intros (H1 & H2 & H3). pose proof (off_le vs (S k)). rewrite (fl_times _ _ _ HS). lia. Qed.
Lemma at_t k v t : at_ k v t -> t < length us.
Proof. intros (H1 & H2 & H3). pose proof (off_le ts (S v)). rewrite len_concat_ts in *. lia. Qed.
Lemma group_at {X} (gs : list (list X)) i j : off gs i <= j < off gs (S i) -> exists g x, nth_error gs i = Some g /\ nth_error g (j - off gs i) = Some x.
Proof.
  intros H. destruct (nth_error gs i) as [g|] eqn:Eg.
  - exists g. rewrite (off_S gs i g Eg) in H. destruct (nth_error g (j - off gs i)) eqn:Ex; [eauto|]. apply nth_error_None in Ex. lia.
  - apply nth_error_None in Eg. rewrite !off_all in H by lia. lia.
Qed.
Lemma concat_at {X} (gs : list (list X)) i g n x : nth_error gs i = Some g -> nth_error g n = Some x -> nth_error (concat gs) (off gs i + n) = Some x.
Proof.
  intros Hg Hx. unfold off. set (m := length (concat (firstn i gs))). rewrite <- (firstn_skipn i gs), concat_app. rewrite nth_error_app2 by (fold m; lia). fold m. replace (m + n - m) with n by lia.
  rewrite (skipn_get gs i g Hg). cbn [concat]. rewrite nth_error_app1; auto. apply nth_error_Some. congruence.
Qed.
Lemma at_path k v t : at_ k v t -> exists key val time diff, nth_error ks k = Some key /\ nth_error (concat vs) v = Some val /\ nth_error (concat ts) t = Some time /\
  nth_error (map snd us) t = Some diff /\ nth_error us t = Some (key, val, time, diff).
Proof.
  intros H. pose proof (at_t _ _ _ H) as Ht. destruct H as (Hk & Hv & Htt). destruct (get_some ks k Hk) as (key & Ek). unfold get in Ek.
  destruct (group_at vs k v Hv) as (vg & val & Eg & Ev). destruct (group_at ts v t Htt) as (tg & time & Eg2 & Et).
  pose proof (expand_nth ks vs k key vg _ val Ek Eg Ev (eq_sym (fl_vals _ _ _ HS))) as P1. replace (off vs k + (v - off vs k)) with v in P1 by lia.
  pose proof (expand_nth (expand ks vs) ts v _ tg _ time P1 Eg2 Et raw_ts) as P2. replace (off ts v + (t - off ts v)) with t in P2 by lia.
  fold (paths ks vs ts) in P2. rewrite E in P2. destruct (nth_error us t) as [[[[a b] c] diff]|] eqn:Eu; [|apply nth_error_None in Eu; lia].
  rewrite nth_error_map, Eu in P2. cbn in P2. injection P2 as -> -> ->. exists key, val, time, diff. split; auto.
  pose proof (concat_at vs k vg _ val Eg Ev) as C1. replace (off vs k + (v - off vs k)) with v in C1 by lia.
  pose proof (concat_at ts v tg _ time Eg2 Et) as C2. replace (off ts v + (t - off ts v)) with t in C2 by lia.
  repeat split; auto. rewrite nth_error_map, Eu. reflexivity.
Qed.
Lemma bound_ok {X} (gs : list (list X)) i : i < length gs -> get (ls_bounds (lists_of gs)) i = Some (off gs (S i)).
Proof. intros H. unfold get. cbn [ls_bounds lists_of]. rewrite ends_nth by auto. reflexivity. Qed.
Lemma off_step {X} (gs : list (list X)) i j : Forall (fun g => g <> []) gs -> off gs (S i) <= j -> j < length (concat gs) -> j = off gs (S i) -> S i < length gs /\ off gs (S i) <= j < off gs (S (S i)).
Proof.
  intros HF H1 H2 ->. assert (L : S i < length gs). { destruct (Nat.lt_ge_cases (S i) (length gs)); auto. rewrite off_all in H2 by auto. lia. }
  split; auto. pose proof (off_lt gs (S i) (S (S i)) HF). lia.
Qed.
Lemma next_key_ok f k v : k < length ks -> off vs k <= v < off vs (S k) -> S v < length (concat vs) ->
  exists k', next_key (S f) u k (S v) (off vs (S k)) = Some (k', off vs (S k')) /\ k' < length ks /\ off vs k' <= S v < off vs (S k').
Proof.
  intros Hk Hv Hn. cbn [next_key]. destruct (Nat.leb_spec (off vs (S k)) (S v)) as [L|L]; [|exists k; repeat split; auto; lia].
  destruct (off_step vs k (S v) (fl_vfull _ _ _ HS) L Hn) as [L1 L2]; [lia|]. cbn [raw u_vals]. rewrite Nat.add_1_r, bound_ok by auto.
  exists (S k). rewrite (fl_vals _ _ _ HS) in L1. split; auto. destruct f; cbn [next_key]; (rewrite (proj2 (Nat.leb_gt _ _)) by lia); reflexivity.
Qed.
Lemma next_val_ok f k v t : at_ k v t -> S t < length us -> length (ls_bounds (lists_of vs)) <> 0 ->
  exists k' v', next_val (S f) u k v (S t) (off vs (S k)) (off ts (S v)) = Some (k', v', off vs (S k'), off ts (S v')) /\ at_ k' v' (S t).
Proof.
  intros (Hk & Hv & Ht) Hn Hb. cbn [next_val]. destruct (Nat.leb_spec (off ts (S v)) (S t)) as [L|L]; [|exists k, v; repeat split; auto; lia].
  destruct (off_step ts v (S t) (fl_tfull _ _ _ HS) L) as [L1 L2]; [rewrite len_concat_ts; auto|lia|]. cbn [raw u_vals u_times].
  destruct (length (ls_bounds (lists_of vs))) as [|n] eqn:El; [congruence|]. rewrite !Nat.add_1_r.
  destruct (next_key_ok n k v Hk Hv) as (k' & Ek & Hk' & Hv'); [rewrite <- (fl_times _ _ _ HS); auto|]. cbn [raw u_vals u_times] in Ek. rewrite Ek, bound_ok by auto.
  exists k', (S v). split; [|repeat split; auto; lia]. destruct f; cbn [next_val]; (rewrite (proj2 (Nat.leb_gt _ _)) by lia); reflexivity.
Qed.
Lemma ds_bound i : i < length us -> get (ls_bounds (lists_of (singles us))) i = Some (S i).
Proof. intros H. rewrite bound_ok by (rewrite singles_length; auto). rewrite off_singles by lia. reflexivity. Qed.
Lemma next_time_ok f k v t : at_ k v t -> S t < length us ->
  exists k' v', next_time (S f) u k v t (S t) (off vs (S k)) (off ts (S v)) (S t) = Some (k', v', S t, off vs (S k'), off ts (S v'), S (S t)) /\ at_ k' v' (S t).
Proof.
  intros H Hn. cbn [next_time]. rewrite Nat.leb_refl, Nat.add_1_r. cbn [raw u_times u_diffs].
  assert (Hb : length (ls_bounds (lists_of vs)) <> 0). { change (ls_bounds (lists_of vs)) with (ends 0 vs). rewrite ends_length, (fl_vals _ _ _ HS). destruct H as (H & _). lia. }
  assert (Hb2 : length (ls_bounds (lists_of ts)) <> 0). { change (ls_bounds (lists_of ts)) with (ends 0 ts). rewrite ends_length. pose proof (at_v _ _ _ H). lia. }
  destruct (length (ls_bounds (lists_of ts))) as [|n] eqn:El; [congruence|].
  destruct (next_val_ok n k v t H Hn Hb) as (k' & v' & Ev & H'). cbn [raw] in Ev. rewrite Ev, ds_bound by auto. exists k', v'. split; auto.
  destruct f; cbn [next_time]; (rewrite (proj2 (Nat.leb_gt _ _)) by lia); reflexivity.
Qed.
Lemma iter_from_ok n : forall k v t, at_ k v t -> S t + n = length us ->
  iter_from n u k v t (S t) (off vs (S k)) (off ts (S v)) (S t) = Some (skipn (S t) us).
Proof.
  induction n as [|n IH]; intros k v t H Hn; cbn [iter_from]; [rewrite skipn_all2 by lia; reflexivity|].
  assert (Hb : length (ls_bounds (u_diffs u)) <> 0). { cbn [raw u_diffs]. change (ls_bounds (lists_of (singles us))) with (ends 0 (singles us)). rewrite ends_length, singles_length. lia. }
  destruct (length (ls_bounds (u_diffs u))) as [|m] eqn:El; [congruence|]. destruct (next_time_ok m k v t H) as (k' & v' & Et & H'); [lia|]. rewrite Et.
  destruct (at_path _ _ _ H') as (key & val & time & diff & E1 & E2 & E3 & E4 & E5). cbn [raw u_keys u_vals u_times u_diffs]. unfold get. cbn [lists_of ls_values]. rewrite HK, concat_singles, E1, E2, E3, E4.
  rewrite Nat.add_1_r. cbn [raw] in IH. rewrite IH by (auto; lia). rewrite (skipn_get us (S t) _ E5). reflexivity.
Qed.
Lemma at_first : us <> [] -> at_ 0 0 0.
Proof.
  clear uk HK. intros Hn. pose proof (fl_vals _ _ _ HS) as LV. pose proof (fl_times _ _ _ HS) as LT. pose proof (fl_vfull _ _ _ HS) as FV. pose proof (fl_tfull _ _ _ HS) as FT. unfold at_, off. unfold paths in E.
  destruct ks as [|k ks']; [destruct us; [congruence|discriminate]|]. destruct vs as [|[|v vg] vs']; [discriminate|inversion FV; congruence|]. destruct ts as [|[|t tg] ts']; [discriminate|inversion FT; congruence|].
  cbn. repeat split; lia.
Qed.
End Iter.
Lemma iter_raw uk ks vs ts us : ls_values uk = ks -> full_lists ks vs ts -> paths ks vs ts = map fst us -> updates_iter (raw uk vs ts us) = Some us.
Proof.
  intros HK HS E. unfold updates_iter. replace (updates_len (raw uk vs ts us)) with (length us) by (unfold updates_len; cbn [raw u_diffs lists_of ls_values]; rewrite concat_singles, map_length; reflexivity).
  destruct us as [|x0 us0]; [reflexivity|]. remember (x0 :: us0) as us. assert (Hn : us <> []) by (subst; discriminate). clear Hequs.
  pose proof (at_first ks vs ts us HS E Hn) as H. replace (0 <? length us) with true by (destruct us; [congruence|reflexivity]).
  pose proof (at_v _ _ _ HS _ _ _ H) as Lv. pose proof (at_t _ _ _ _ HS E _ _ _ H) as Lt. pose proof H as (Lk & _ & _). cbn [raw u_vals u_times u_diffs].
  rewrite bound_ok by (rewrite (fl_vals _ _ _ HS); auto). rewrite bound_ok by auto. rewrite ds_bound by auto.
  destruct (length us) as [|n] eqn:El; [lia|]. cbn [iter_from].
  assert (NT : forall f, next_time f (raw uk vs ts us) 0 0 0 0 (off vs 1) (off ts 1) 1 = Some (0, 0, 0, off vs 1, off ts 1, 1)) by (intros [|f]; reflexivity).
  cbn [raw] in NT. rewrite NT. destruct (at_path _ _ _ _ HS E _ _ _ H) as (key & val & time & diff & E1 & E2 & E3 & E4 & E5). cbn [u_keys u_vals u_times u_diffs]. unfold raw. cbn [u_keys u_vals u_times u_diffs]. rewrite HK. unfold get. cbn [lists_of ls_values]. rewrite concat_singles, E1, E2, E3, E4.
  pose proof (iter_from_ok _ _ _ _ _ HK HS E n 0 0 0 H) as I. unfold raw in I. cbn [Nat.add] in I |- *. rewrite I by lia. rewrite <- (skipn_get us 0 _ E5). reflexivity.
Qed.
Lemma updates_iter_ok (u : Upd) us : holds u us -> updates_iter u = Some us.
Proof. intros (ks & vs & ts & HS & -> & E). apply (iter_raw (lists_of (root ks)) ks); auto; [apply concat_root|apply shaped_full; auto]. Qed.
(** What was pushed one by one is read back. *)
Lemma push_all_raw (l : list U) : fold_left updates_push l updates_new =
  raw (lists_of (map (fun x => [fst (fst (fst x))]) l)) (map (fun x => [snd (fst (fst x))]) l) (map (fun x => [snd (fst x)]) l) l.
Proof.
  induction l as [|[[[k v] t] d] l IH] using rev_ind; [reflexivity|]. rewrite fold_left_app, IH. cbn [fold_left updates_push raw u_keys u_vals u_times u_diffs].
  rewrite !map_app, !lists_open, !push_value_open, !seal_open. unfold raw, singles. rewrite map_app, <- !lists_open. reflexivity.
Qed.
Lemma concat_map_one {X Y} (f : X -> Y) l : concat (map (fun x => [f x]) l) = map f l.
Proof. induction l; cbn; congruence. Qed.
Lemma push_all_read (l : list U) : updates_iter (fold_left updates_push l updates_new) = Some l.
Proof.
  rewrite push_all_raw. assert (F : forall X Y (f : X -> Y) l, Forall (fun g => g <> []) (map (fun x => [f x]) l)) by (intros; apply Forall_map; apply Forall_forall; discriminate).
  apply (iter_raw _ (map (fun x => fst (fst (fst x))) l)); [apply concat_map_one| |].
  - split; auto; rewrite ?concat_map_one, !map_length; reflexivity.
  - unfold paths. induction l as [|[[[k v] t] d] l IH]; [reflexivity|]. cbn. f_equal. apply IH.
Qed.

(** ** Forming *)
(* an open trie, whose last update is at [prev] *)
Definition forming (u : Upd) (us : list U) (prev : K * V * T) : Prop :=
  exists ks' vs' vg ts' tg, let '(k, v, t) := prev in
    shaped (ks' ++ [k]) (vs' ++ [vg ++ [v]]) (ts' ++ [tg ++ [t]]) /\ paths (ks' ++ [k]) (vs' ++ [vg ++ [v]]) (ts' ++ [tg ++ [t]]) = map fst us /\
    u = {| u_keys := open_of [] (ks' ++ [k]); u_vals := open_of vs' (vg ++ [v]); u_times := open_of ts' (tg ++ [t]); u_diffs := lists_of (singles us) |}.
Lemma seal_single (us : list U) d x : snd x = d -> seal_list (push_value (lists_of (singles us)) d) = lists_of (singles (us ++ [x])).
Proof. intros <-. rewrite lists_open, push_value_open, seal_open, singles_app. reflexivity. Qed.
Lemma Forall_last {X} (P : X -> Prop) l x : Forall P (l ++ [x]) <-> Forall P l /\ P x.
Proof. rewrite Forall_app. split; intros [H1 H2]; split; auto. inversion H2; auto. Qed.
Lemma form_step_ok (l : list U) : forall u us prev, forming u us prev -> strictly_sorted (prev :: map fst l) ->
  exists u' prev', form_loop prev l u = Some u' /\ forming u' (us ++ l) prev'.
Proof.
  induction l as [|[[[k2 v2] t2] d2] l IH]; intros u us [[k v] t] HF HS.
  { exists u, (k, v, t). rewrite app_nil_r. auto. }
  cbn [map fst] in HS. apply strictly_sorted_cons_inv in HS as [HS HL]. inversion HL as [|? ? Hlt _]; subst. apply lex_cases in Hlt.
  destruct HF as (ks' & vs' & vg & ts' & tg & H & HP & ->).
  pose proof (sh_vals _ _ _ H) as LV. pose proof (sh_times _ _ _ H) as LT. rewrite !app_length in LV. rewrite concat_app, !app_length in LT. cbn in LV, LT. rewrite app_nil_r, app_length in LT. cbn in LT.
  pose proof (sh_keys _ _ _ H) as SK. pose proof (sh_vsorted _ _ _ H) as SV. pose proof (sh_tsorted _ _ _ H) as ST. pose proof (sh_vfull _ _ _ H) as FV. pose proof (sh_tfull _ _ _ H) as FT.
  assert (One : forall A (OA : Ord A) (x : A), strictly_sorted [x]) by (intros; constructor).
  assert (NE : forall A (OA : Ord A) (x y : A), lt x y -> eqb y x = false) by (intros A OA x y Hx; apply eqb_neq; intros ->; exact (lt_irrefl _ Hx)).
  assert (EL : expand (ks' ++ [k]) (vs' ++ [vg ++ [v]]) = (expand ks' vs' ++ map (pair k) vg) ++ [(k, v)]).
  { rewrite expand_app by lia. cbn [expand]. rewrite app_nil_r, map_app, app_assoc. reflexivity. }
  assert (LE : length (expand ks' vs' ++ map (pair k) vg) = length ts') by (rewrite app_length, map_length, expand_length; lia).
  cbn [form_loop u_keys u_vals u_times u_diffs].
  destruct Hlt as [Hk|[[<- Hv]|(<- & <- & Ht)]].
  - rewrite (NE _ _ _ _ Hk). cbn [negb u_keys u_vals u_times u_diffs]. rewrite push_value_open, !seal_open, (lists_open (vs' ++ _)), (lists_open (ts' ++ _)), !push_value_open, (seal_single us d2 (k2, v2, t2, d2) eq_refl). cbn [app].
    match goal with |- context [form_loop _ _ ?b] => destruct (IH b (us ++ [(k2, v2, t2, d2)]) (k2, v2, t2)) with (2 := HS) as (u' & p' & E' & H'); [|rewrite <- app_assoc in H'; eauto] end.
    exists (ks' ++ [k]), (vs' ++ [vg ++ [v]]), [], (ts' ++ [tg ++ [t]]), []. cbn [app]. split; [split|split; [|reflexivity]].
    + rewrite !app_length. cbn. lia.
    + rewrite !concat_app, !app_length. cbn. rewrite app_nil_r, app_length. cbn. lia.
    + apply sorted_join; auto.
    + apply Forall_last; auto.
    + apply Forall_last; auto.
    + apply Forall_last; split; auto; discriminate.
    + apply Forall_last; split; auto; discriminate.
    + unfold paths in HP |- *. rewrite expand_app by (rewrite !app_length; cbn; lia). rewrite expand_app by (rewrite EL, !app_length; cbn; rewrite <- LE, app_length; lia). rewrite HP, map_app. reflexivity.
  - rewrite eqb_refl, (NE _ _ _ _ Hv). cbn [negb u_keys u_vals u_times u_diffs]. rewrite !seal_open, (lists_open (ts' ++ _)), !push_value_open, (seal_single us d2 (k, v2, t2, d2) eq_refl). cbn [app].
    match goal with |- context [form_loop _ _ ?b] => destruct (IH b (us ++ [(k, v2, t2, d2)]) (k, v2, t2)) with (2 := HS) as (u' & p' & E' & H'); [|rewrite <- app_assoc in H'; eauto] end.
    exists ks', vs', (vg ++ [v]), (ts' ++ [tg ++ [t]]), []. cbn [app]. split; [split|split; [|reflexivity]]; auto.
    + rewrite !app_length. cbn. lia.
    + rewrite !concat_app, !app_length. cbn. rewrite app_nil_r, !app_length. cbn. lia.
    + apply Forall_last in SV as [SV0 SV1]. apply Forall_last. split; auto. apply sorted_join; auto.
    + apply Forall_last; auto.
    + apply Forall_last in FV as [FV0 FV1]. apply Forall_last. split; auto. destruct vg; discriminate.
    + apply Forall_last; split; auto; discriminate.
    + assert (E2 : expand (ks' ++ [k]) (vs' ++ [(vg ++ [v]) ++ [v2]]) = expand (ks' ++ [k]) (vs' ++ [vg ++ [v]]) ++ [(k, v2)]).
      { rewrite !expand_app by lia. cbn [expand]. rewrite !app_nil_r, !map_app, <- !app_assoc. reflexivity. }
      unfold paths in HP |- *. rewrite E2, expand_app by (rewrite EL, !app_length; cbn; rewrite <- LE, app_length; lia). rewrite HP, map_app. reflexivity.
  - rewrite !eqb_refl, (NE _ _ _ _ Ht). cbn [negb u_keys u_vals u_times u_diffs]. rewrite !push_value_open, (seal_single us d2 (k, v, t2, d2) eq_refl).
    match goal with |- context [form_loop _ _ ?b] => destruct (IH b (us ++ [(k, v, t2, d2)]) (k, v, t2)) with (2 := HS) as (u' & p' & E' & H'); [|rewrite <- app_assoc in H'; eauto] end.
    exists ks', vs', vg, ts', (tg ++ [t]). split; [split|split; [|reflexivity]]; auto.
    + rewrite !app_length. cbn. lia.
    + rewrite !concat_app, !app_length. cbn. rewrite app_nil_r, !app_length. cbn. lia.
    + apply Forall_last in ST as [ST0 ST1]. apply Forall_last. split; auto. apply sorted_join; auto.
    + apply Forall_last in FT as [FT0 FT1]. apply Forall_last. split; auto. destruct tg; discriminate.
    + unfold paths in HP |- *. rewrite EL in *. rewrite expand_app in HP |- * by auto. cbn [expand] in *. rewrite app_nil_r in *. rewrite (map_app _ (tg ++ [t])), app_assoc, HP, map_app. reflexivity.
Qed.
Lemma eqb_triple (x y : K * V * T) : eqb (fst (fst x)) (fst (fst y)) && eqb (snd (fst x)) (snd (fst y)) && eqb (snd x) (snd y) = eqb x y.
Proof.
  destruct x as [[a b] c], y as [[a' b'] c']. cbn [fst snd]. destruct (eqb_spec a a') as [->|N]; cbn [andb]; [|symmetry; apply eqb_neq; congruence].
  destruct (eqb_spec b b') as [->|N]; cbn [andb]; [|symmetry; apply eqb_neq; congruence]. destruct (eqb_spec c c') as [->|N]; [rewrite eqb_refl; auto|symmetry; apply eqb_neq; congruence].
Qed.
Lemma consolidating_run_ok (l : list U) : forall x d, consolidating_run x d l = compact_go (A:=K*V*T) (x, d) l.
Proof.
  induction l as [|[x2 d2] l IH]; intros x d; cbn [consolidating_run compact_go]; [unfold keep_nonzero; cbn; destruct (is_zero d); reflexivity|].
  rewrite eqb_triple. cbn [fst snd]. destruct (eqb x2 x); rewrite IH; auto. unfold keep_nonzero. cbn. destruct (is_zero d); reflexivity.
Qed.
Lemma consolidating_ok (l : list U) : consolidating l = compact (A:=K*V*T) l.
Proof. destruct l as [|[x d] l]; [reflexivity|]. apply consolidating_run_ok. Qed.
(** What is formed from a list holds its consolidation, if equal updates are adjacent in it and in order. *)
Lemma form_ok (l : list U) : consolidated (A:=K*V*T) (compact (A:=K*V*T) l) -> exists u, form l = Some u /\ holds u (compact (A:=K*V*T) l).
Proof.
  intros [HC _]. unfold form. rewrite consolidating_ok. destruct (compact l) as [|[[[k v] t] d] l']; [exists updates_new; split; [reflexivity|apply holds_nil]|].
  destruct (form_step_ok l' {| u_keys := push_value ls_new k; u_vals := push_value ls_new v; u_times := push_value ls_new t; u_diffs := seal_list (push_value ls_new d) |} [(k, v, t, d)] (k, v, t)) as (u' & [[k' v'] t'] & E & H').
  - exists [], [], [], [], []. split; [|split; reflexivity]. split; cbn; auto; repeat constructor; discriminate.
  - exact HC.
  - rewrite E. destruct H' as (ks' & vs' & vg & ts' & tg & H & HP & ->). eexists. split; [reflexivity|]. cbn [u_keys u_vals u_times u_diffs].
    exists (ks' ++ [k']), (vs' ++ [vg ++ [v']]), (ts' ++ [tg ++ [t']]). split; auto. split; auto. unfold cols. rewrite !seal_open. destruct ks'; reflexivity.
Qed.
Lemma compact_fixed (l : list U) : consolidated (A:=K*V*T) l -> compact (A:=K*V*T) l = l.
Proof.
  intros H. assert (HK : key_sorted (A:=K*V*T) l).
  { destruct H as [H _]. clear -H. induction l as [|x l IH]; constructor; cbn [map] in H; apply strictly_sorted_cons_inv in H as [H HF]; auto.
    rewrite Forall_map in HF. eapply Forall_impl; [|exact HF]. intros y Hy. apply lt_le. auto. }
  apply consolidated_unique; auto; [apply compact_consolidated; auto|apply compact_weight].
Qed.
Lemma form_fixed (l : list U) : consolidated (A:=K*V*T) l -> exists u, form l = Some u /\ holds u l.
Proof. intros H. destruct (form_ok l) as (u & E & Hu); rewrite compact_fixed in * by auto; eauto. Qed.
Lemma holds_form u (l : list U) : holds u l -> consolidated (A:=K*V*T) l -> form l = Some u.
Proof. intros H HC. destruct (form_fixed l HC) as (u' & E & H'). rewrite E. f_equal. eapply holds_unique; eauto. Qed.
End Read.
