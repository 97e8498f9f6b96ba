(** * Columnar chunks: the cursor *)
From Coq Require Import Arith Lia.
From Verif Require Import Base.Arrays Base.Collections Spec.Collection Spec.ColumnarSpec Proofs.ConsolidationP Proofs.TrieP Proofs.CursorP Proofs.CursorListP Proofs.OrdNeuP.
From Verif Require Import Model.ColumnarM Proofs.ColListsP Proofs.ColSurveyP Proofs.ColTrieP Proofs.ColMeldP Proofs.ColReadP Proofs.ColChunkP Proofs.ColAdvanceP.
From Verif Require Import Base.Order.

Section Cursor.
Context {K V T R : Type} {OK : Ord K} {OV : Ord V} {TT : Time T} {DR : Diff R}.
Local Notation U := (K * V * T * R)%type.
Local Notation Upd := (Updates K V T R).
Local Notation Chk := (ColChunk K V T R).
Local Notation Nst := (trie K V T R).
Implicit Types (N : Nst) (s : Chk).

(** ** The trie a chunk presents *)
Lemma flat_nest N : flat N = ungroup (ungroup N).
Proof.
  induction N as [|[k g] N IH]; [reflexivity|]. rewrite ungroup_cons, ungroup_app, <- IH. unfold flat. cbn [flat_map fst snd]. f_equal. clear.
  induction g as [|[v l] g IH]; [reflexivity|]. cbn [flat_map map fst snd]. rewrite ungroup_cons, IH. reflexivity.
Qed.
Lemma nest_wf N : well_nested N -> Forall (fun x : U => is_zero (snd x) = false) (ungroup (ungroup N)) -> wf_trie N.
Proof.
  intros [W1 W2 W3] HZ. split; auto. rewrite Forall_forall in *. intros [k g] Hx. cbn [snd]. destruct (W2 _ Hx) as [A1 A2]. split; auto. split; auto. apply Forall_forall. intros [v l] Hv. cbn [snd].
  assert (HM : In (k, v, l) (ungroup N)) by (unfold ungroup; apply in_flat_map; exists (k, g); split; auto; apply in_map_iff; exists (v, l); auto).
  destruct (W3 _ HM) as [B1 B2]. split; auto. split; auto. apply Forall_forall. intros [t r] Hr. apply (HZ (k, v, t, r)). unfold ungroup at 1. apply in_flat_map. exists (k, v, l). split; auto. apply in_map_iff. exists (t, r). auto.
Qed.
Lemma made_nest s : col_made s -> into_trie s = trie_of_nest (trie_of (col_rows s)) /\ well_nested (trie_of (col_rows s)).
Proof.
  intros M. apply made_of in M as (H & HC & _). destruct (holds_nest _ _ H) as (N & E & Eu & W). rewrite Eu in HC. pose proof (nest_wf _ W (proj2 HC)) as WF. pose proof (trie_of_flat _ WF) as TF. rewrite flat_nest, <- Eu in TF. rewrite TF. auto.
Qed.

(** ** What the accessors read *)
Lemma key_at N i k g : nth_error N i = Some (k, g) -> get (concat (root (map fst N))) i = Some k /\ off (labels N) (S i) = off (labels N) i + length g /\
  child_range (ls_bounds (lists_of (labels N))) i = Some (off (labels N) i, off (labels N) i + length g) /\ off (labels N) i + length g <= length (concat (labels N)).
Proof.
  intros H. assert (L : nth_error (labels N) i = Some (map fst g)) by (unfold labels; rewrite nth_error_map, H; reflexivity). pose proof (off_S _ _ _ L) as O. rewrite map_length in O.
  split; [unfold get; rewrite concat_root, nth_error_map, H; reflexivity|]. split; auto. rewrite child_range_ok by (apply nth_error_Some; congruence). rewrite O. split; auto. rewrite <- O. apply off_le.
Qed.
Lemma val_at N i k g j v l : nth_error N i = Some (k, g) -> nth_error g j = Some (v, l) -> nth_error (ungroup N) (off (labels N) i + j) = Some (k, v, l).
Proof.
  intros H Hj. pose proof (sub_ungroup N _ _ _ H) as S. destruct (key_at _ _ _ _ H) as (_ & O & _). rewrite O in S.
  assert (Lj : j < length g) by (apply nth_error_Some; congruence). assert (E : nth_error (sub (ungroup N) (off (labels N) i) (off (labels N) i + length g)) j = Some (k, v, l)) by (rewrite S, nth_error_map, Hj; reflexivity).
  rewrite <- E. unfold sub. rewrite nth_error_firstn_lt by lia. symmetry. apply nth_error_skipn.
Qed.
Lemma cc_times_ok N (g : list (T * R)) : forall j n kv, n = length g -> sub (ungroup (ungroup N)) j (j + n) = map (fun y => (kv, fst y, snd y)) g -> j + n <= length (ungroup (ungroup N)) ->
  cc_times (trie_of_nest N) (seq j n) = Some g.
Proof.
  induction g as [|[t r] g IH]; intros j n kv -> HS HL; [reflexivity|]. cbn [length] in *. cbn [seq cc_times]. set (us := ungroup (ungroup N)) in *.
  destruct (get_some us j) as (y & Ey); [lia|]. unfold get in Ey. rewrite (sub_cons us j (j + S (length g)) y Ey) in HS by lia. cbn [map fst snd] in HS. injection HS as -> HS.
  assert (Ht : get (ls_values (u_times (trie_of_nest N))) j = Some t).
  { unfold get. cbn [trie_of_nest cols u_times lists_of ls_values]. rewrite labels_concat, nth_error_map. fold us. rewrite Ey. reflexivity. }
  rewrite Ht. unfold trie_of_nest at 1 2, cols at 1 2. cbn [u_diffs]. fold us. rewrite child_range_ok by (rewrite singles_length; lia). rewrite !off_singles by lia. rewrite (proj2 (Nat.leb_le _ _)) by lia.
  assert (Hr : slice (ls_values (lists_of (singles us))) j (S j) = Some [r]).
  { cbn [lists_of ls_values]. rewrite concat_singles. rewrite slice_ok by (rewrite ?map_length; lia). rewrite (sub_cons _ _ _ r) by (rewrite ?nth_error_map, ?Ey; auto; lia). rewrite sub_nil. reflexivity. }
  rewrite Hr. rewrite (IH (S j) (length g) kv); auto; [replace (S j + length g) with (j + S (length g)) by lia; auto|lia].
Qed.
Definition cc_rel N (c : ColChunkCursor) (p : pos) : Prop :=
  cc_key c = kp p /\ kp p <= length N /\ (kp p < length N -> cc_val c = off (labels N) (kp p) + vp p /\ vp p <= length (cur_vals N p)).
Section One.
Variable s : Chk.
Variable N : Nst.
Hypothesis HS : into_trie s = trie_of_nest N.
Hypothesis W : well_nested N.
Lemma valid_key c : cc_key_valid s c = (cc_key c <? length N).
Proof. unfold cc_key_valid. rewrite HS. cbn [trie_of_nest cols u_keys lists_of ls_values]. rewrite concat_root, map_length. reflexivity. Qed.
Lemma rewind_vals_rel c i : i < length N -> cc_key c = i -> exists c', cc_rewind_vals s c = Some c' /\ cc_rel N c' {| kp := i; vp := 0 |}.
Proof.
  intros Hi E. unfold cc_rewind_vals. rewrite valid_key, E, (proj2 (Nat.ltb_lt _ _) Hi), HS. destruct (get_some N _ Hi) as ([k g] & Ei). destruct (key_at _ _ _ _ Ei) as (_ & _ & C & _). cbn [trie_of_nest cols u_vals].
  rewrite C. eexists. split; [reflexivity|]. split; [reflexivity|]. cbn [kp vp cc_val]. split; [lia|]. intros _. split; lia.
Qed.
Lemma gallop_prefix {A} {OA : Ord A} {B} (arr : list A) (l : list (A * B)) (a : A) base n :
  strictly_sorted (map fst l) -> n <= length l -> base + length l <= length arr -> (forall i x, nth_error l i = Some x -> nth_error arr (base + i) = Some (fst x)) ->
  gallop (fun x => ltb x a) arr (base + n) (base + length l) = Some (base + n + prefix_len (fun e => ltb (fst e) a) (skipn n l)).
Proof.
  intros Hs Hn Hlen Harr. pose proof (prefix_len_le (fun e : A * B => ltb (fst e) a) (skipn n l)) as Hp. rewrite skipn_length in Hp.
  apply gallop_range; try lia. intros i x Hi Hx. destruct (get_some l (i - base)) as (y & Hy); [lia|]. unfold get in Hy.
  pose proof (Harr _ _ Hy) as Hb. replace (base + (i - base)) with i in Hb by lia. rewrite Hb in Hx. injection Hx as <-.
  assert (Hy' : nth_error (skipn n l) (i - base - n) = Some y) by (rewrite nth_error_skipn; rewrite <- Hy; f_equal; lia).
  rewrite (prefix_len_get _ a _ _ (strictly_sorted_skipn l n Hs) Hy').
  destruct (Nat.ltb_spec (i - base - n) (prefix_len (fun e : A * B => ltb (fst e) a) (skipn n l)));
    destruct (Nat.ltb_spec i (base + n + prefix_len (fun e : A * B => ltb (fst e) a) (skipn n l))); auto; lia.
Qed.
Theorem cc_presents : presents cc_ops s cc_new N.
Proof.
  apply (presents_by_simulation _ _ _ _ (cc_rel N)).
  - split; [reflexivity|]. cbn [start kp vp cc_new cc_val]. split; [lia|]. intros _. split; [rewrite off_0; reflexivity|lia].
  - intros c p (E1 & E2 & E3). unfold c_observe. cbn [cc_ops c_get_key c_get_val c_map_times c_key c_val c_key_valid c_val_valid]. unfold cc_get_key, cc_get_val, cc_map_times, cc_val_valid. rewrite !valid_key, !E1. unfold cc_key_of, cc_val_of, observation, at_key. rewrite !HS.
    cbn [trie_of_nest cols u_keys u_vals u_times]. change (ls_values (lists_of (root (map fst N)))) with (concat (root (map fst N))). change (ls_values (lists_of (labels N))) with (concat (labels N)). rewrite !E1.
    destruct (nth_error N (kp p)) as [[k g]|] eqn:Ek.
    + assert (Hlt : kp p < length N) by (apply nth_error_Some; congruence). destruct (E3 Hlt) as [E4 E5]. destruct (key_at _ _ _ _ Ek) as (K1 & _ & K3 & K4). rewrite (proj2 (Nat.ltb_lt _ _) Hlt), K1, K3, E4. cbn [option_map fst].
      rewrite eqb_refl. unfold at_val, at_times, cur_vals in *. rewrite Ek in *. destruct (nth_error g (vp p)) as [[v l]|] eqn:Ev.
      * assert (Hv : vp p < length g) by (apply nth_error_Some; congruence). rewrite (proj2 (Nat.ltb_lt _ _)) by lia. pose proof (val_at _ _ _ _ _ _ _ Ek Ev) as HM. destruct (group_get N _ _ _ HM) as (L1 & L2 & L3 & L4 & L5).
        cbn [trie_of_nest cols u_vals lists_of ls_values snd] in L2. rewrite L2. cbn [option_map fst]. rewrite eqb_refl, child_range_ok by auto. unfold range. rewrite L3. match goal with |- context [seq ?a (?a + ?b - ?a)] => replace (a + b - a) with b by lia end.
        change (cols (map fst N) (labels N) (labels (ungroup N)) (singles (ungroup (ungroup N)))) with (trie_of_nest N). rewrite (cc_times_ok N l _ _ (k, v)); auto; [rewrite <- L3|rewrite <- L3]; auto.
      * apply nth_error_None in Ev. rewrite (proj2 (Nat.ltb_ge _ _)) by lia. reflexivity.
    + apply nth_error_None in Ek. rewrite (proj2 (Nat.ltb_ge _ _)) by lia. reflexivity.
  - intros c p op (E1 & E2 & E3) HL. destruct op; cbn [c_nav cc_ops c_step_key c_seek_key c_step_val c_seek_val c_rewind_keys c_rewind_vals].
    + unfold cc_step_key. rewrite valid_key. cbn [cc_key]. rewrite E1. unfold move. destruct (Nat.ltb_spec (kp p + 1) (length N)) as [Hlt|Hge].
      * replace (Nat.min (S (kp p)) (length N)) with (kp p + 1) by lia. apply rewind_vals_rel; auto.
      * rewrite HS. cbn [trie_of_nest cols u_keys lists_of ls_values]. rewrite concat_root, map_length. eexists. split; [reflexivity|]. replace (Nat.min (S (kp p)) (length N)) with (length N) by lia. split; [reflexivity|]. cbn [kp]. split; lia.
    + unfold cc_seek_key. rewrite HS. cbn [trie_of_nest cols u_keys lists_of ls_values]. rewrite concat_root, E1.
      pose proof (gallop_prefix (map fst N) N k 0 (kp p) (wn_keys _ W) E2) as HA. cbn [Nat.add] in HA. rewrite map_length in HA |- *. rewrite HA; [|lia|intros i x Hi; rewrite nth_error_map, Hi; reflexivity].
      pose proof (prefix_len_le (fun e => ltb (fst e) k) (skipn (kp p) N)) as Hp. rewrite skipn_length in Hp. unfold move. rewrite valid_key. cbn [cc_key].
      destruct (Nat.ltb_spec (kp p + prefix_len (fun e => ltb (fst e) k) (skipn (kp p) N)) (length N)) as [Hlt|Hge]; [apply rewind_vals_rel; auto|]. eexists. split; [reflexivity|]. split; [reflexivity|]. cbn [kp]. split; lia.
    + unfold legal, at_key in HL. destruct (nth_error N (kp p)) as [[k g]|] eqn:Ek; [|exfalso; apply HL; reflexivity]. assert (Hlt : kp p < length N) by (apply nth_error_Some; congruence). destruct (E3 Hlt) as [E4 E5].
      destruct (key_at _ _ _ _ Ek) as (K1 & _ & K3 & K4). unfold cc_step_val, cc_val_valid. rewrite valid_key, HS. cbn [trie_of_nest cols u_vals cc_key cc_val]. rewrite E1, (proj2 (Nat.ltb_lt _ _) Hlt), K3, E4. unfold move, cc_rel, cur_vals in *. cbn [kp vp]. rewrite Ek in *.
      destruct (Nat.ltb_spec (off (labels N) (kp p) + vp p + 1) (off (labels N) (kp p) + length g)); eexists; (split; [reflexivity|]); cbn [cc_key cc_val]; repeat split; lia.
    + unfold legal, at_key in HL. destruct (nth_error N (kp p)) as [[k g]|] eqn:Ek; [|exfalso; apply HL; reflexivity]. assert (Hlt : kp p < length N) by (apply nth_error_Some; congruence). destruct (E3 Hlt) as [E4 E5].
      destruct (key_at _ _ _ _ Ek) as (K1 & _ & K3 & K4). unfold cc_seek_val. rewrite valid_key, HS. cbn [trie_of_nest cols u_vals cc_key cc_val]. rewrite E1, (proj2 (Nat.ltb_lt _ _) Hlt), K3, E4. unfold move, cc_rel, cur_vals in *. cbn [kp vp]. rewrite Ek in *.
      assert (Ws : strictly_sorted (map fst g)) by (pose proof (wn_vals _ W) as F; rewrite Forall_forall in F; apply (F (k, g)); eapply nth_error_In; eauto).
      rewrite (gallop_prefix (ls_values (lists_of (labels N))) g v (off (labels N) (kp p)) (vp p)); auto.
      * eexists. split; [reflexivity|]. cbn [cc_key cc_val]. pose proof (prefix_len_le (fun e => ltb (fst e) v) (skipn (vp p) g)) as Hp. rewrite skipn_length in Hp. repeat split; lia.
      * intros i [v' l] Hi. destruct (group_get N _ _ _ (val_at _ _ _ _ _ _ _ Ek Hi)) as (_ & L2 & _). exact L2.
    + unfold cc_rewind_keys, move. destruct (Nat.ltb_spec 0 (length N)) as [Hlt|Hge]; [apply rewind_vals_rel; auto|]. unfold cc_rewind_vals. rewrite valid_key. cbn [cc_key]. rewrite (proj2 (Nat.ltb_ge _ _)) by lia.
      eexists. split; [reflexivity|]. split; [reflexivity|]. cbn [start kp]. split; lia.
    + unfold legal, at_key in HL. destruct (nth_error N (kp p)) as [[k g]|] eqn:Ek; [|exfalso; apply HL; reflexivity]. assert (Hlt : kp p < length N) by (apply nth_error_Some; congruence). apply rewind_vals_rel; auto.
Qed.
End One.

(** ** The laws of chunks that can be navigated *)
Theorem col_navigable : NavigableLaws col_made col_rows cc_ops (fun _ : Chk => cc_new) col_kv_bounds.
Proof.
  split.
  - intros s M _ _. destruct (made_nest _ M) as [E W]. apply cc_presents; auto.
  - intros s f l M Hf Hl. unfold col_kv_bounds. rewrite (bounds_made s f l); auto.
Qed.
End Cursor.
