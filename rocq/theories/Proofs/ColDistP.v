(** * Columnar containers: the distributor *)
From Coq Require Import Arith Lia.
From Verif Require Import Base.Arrays Base.Collections Spec.Collection Spec.ColumnarSpec Spec.ColCollSpec Proofs.ConsolidationP.
From Verif Require Import Model.ColumnarM Model.ColCollM Proofs.ColListsP Proofs.ColTrieP Proofs.ColMeldP Proofs.ColReadP Proofs.ColChunkP Proofs.ColAdvanceP Proofs.ColCollP Proofs.ColChunkerP.
From Verif Require Import Base.Order.

(** ** Routes *)
Lemma route_mod n h : 0 < n -> route n h = h mod n.
Proof.
  intros Hn. unfold route, power_of_two. destruct (Nat.eqb_spec n (2 ^ Nat.log2 n)) as [E|_]; auto. rewrite E at 1 2. rewrite Nat.sub_1_r, <- Nat.ones_equiv. apply Nat.land_ones.
Qed.
Lemma upd_seq {X} (f : nat -> X) (x : X) i : forall s n, i < n -> upd (map f (seq s n)) i x = map (fun j => if j =? s + i then x else f j) (seq s n).
Proof.
  induction i as [|i IH]; intros s [|n] H; try lia; cbn [seq map upd].
  - rewrite Nat.add_0_r, Nat.eqb_refl. f_equal. apply map_ext_in. intros j Hj. apply in_seq in Hj. rewrite (proj2 (Nat.eqb_neq j s)) by lia. reflexivity.
  - rewrite (proj2 (Nat.eqb_neq s (s + S i))) by lia. f_equal. rewrite (IH (S s) n) by lia. apply map_ext. intros j. replace (S s + i) with (s + S i) by lia. reflexivity.
Qed.
Lemma get_seq {X} (f : nat -> X) i n : i < n -> get (map f (seq 0 n)) i = Some (f i).
Proof. intros H. unfold get. rewrite nth_error_map, (nth_error_nth' _ 0) by (rewrite seq_length; auto). rewrite seq_nth by auto. reflexivity. Qed.

Section Dist.
Context {K V T R : Type} {OK : Ord K} {OV : Ord V} {TT : Time T} {DR : Diff R}.
Local Notation U := (K * V * T * R)%type.
Local Notation Upd := (Updates K V T R).
Local Notation Rec := (RecordedUpdates K V T R).
Local Notation Ent := (K * list (V * list (T * R)))%type.
Local Notation rows N := (ungroup (ungroup N)).

(** ** Tries with any number of groups of keys; the last group may be open *)
Definition otrie (gs : list (list Ent)) (g : list Ent) : Upd :=
  {| u_keys := open_of (map (map fst) gs) (map fst g); u_vals := lists_of (labels (concat gs ++ g)); u_times := lists_of (labels (ungroup (concat gs ++ g)));
     u_diffs := lists_of (singles (rows (concat gs ++ g))) |}.
Definition full_entry (e : Ent) : Prop := snd e <> [] /\ Forall (fun p => snd p <> []) (snd e).
Lemma sub_ungroup_range {A X Y} (l : list (A * list (X * Y))) lo hi : lo <= hi -> sub (ungroup l) (off (labels l) lo) (off (labels l) hi) = ungroup (sub l lo hi).
Proof. intros H. unfold ungroup. rewrite !flat_map_concat_map, !off_labels, map_sub. apply sub_concat. auto. Qed.
Lemma labels_sub {A X Y} (l : list (A * list (X * Y))) lo hi : sub (labels l) lo hi = labels (sub l lo hi).
Proof. unfold labels. symmetry. apply map_sub. Qed.
Lemma labels_app {A X Y} (l1 l2 : list (A * list (X * Y))) : labels (l1 ++ l2) = labels l1 ++ labels l2.
Proof. apply map_app. Qed.
Lemma labels_length {A X Y} (l : list (A * list (X * Y))) : length (labels l) = length l.
Proof. apply map_length. Qed.
Lemma concat_map_fst (gs : list (list Ent)) : concat (map (map fst) gs) = map fst (concat gs).
Proof. symmetry. apply concat_map. Qed.
Lemma children_ok {X} (gs : list (list X)) lo hi : lo < hi -> hi <= length gs -> children_bounds (ls_bounds (lists_of gs)) lo hi = Some (off gs lo, off gs hi).
Proof.
  intros H1 H2. unfold children_bounds. rewrite (proj2 (Nat.ltb_lt _ _)) by auto. destruct hi as [|hi]; [lia|]. rewrite Nat.sub_succ, Nat.sub_0_r, bound_ok by lia. destruct lo as [|lo]; [reflexivity|]. rewrite bound_ok by lia. reflexivity.
Qed.
Lemma extend_entry gs g (src : list (list Ent)) k e : nth_error (concat src) k = Some e -> full_entry e ->
  extend_from_keys (otrie gs g) (otrie src []) k (k + 1) = Some (otrie gs (g ++ [e])).
Proof.
  intros He [Hv Hr]. set (N := concat src) in *. assert (Lk : k < length N) by (apply nth_error_Some; congruence). rewrite Nat.add_1_r.
  unfold extend_from_keys. unfold otrie. cbn [u_keys u_vals u_times u_diffs]. rewrite !app_nil_r. fold N. cbn [map open_of ls_values]. rewrite app_nil_r, concat_map_fst. fold N.
  rewrite slice_ok by (rewrite ?map_length; lia). rewrite extend_ok by (rewrite ?labels_length; lia). rewrite children_ok by (rewrite ?labels_length; lia).
  assert (S1 : sub N k (S k) = [e]) by (apply sub_one; auto). destruct e as [key vg]. cbn [snd] in *.
  assert (O1 : off (labels N) (S k) = off (labels N) k + length vg).
  { rewrite (off_S _ _ (map fst vg)); [rewrite map_length; reflexivity|]. unfold labels. rewrite nth_error_map, He. reflexivity. }
  assert (Lv : 0 < length vg) by (destruct vg; [congruence|cbn; lia]).
  assert (O2 : off (labels N) (S k) <= length (ungroup N)) by (pose proof (off_le (labels N) (S k)) as H; rewrite labels_concat, map_length in H; exact H).
  rewrite extend_ok by (rewrite ?labels_length; lia). rewrite children_ok by (rewrite ?labels_length; lia).
  set (M := ungroup N) in *. set (a := off (labels N) k) in *. set (b := off (labels N) (S k)) in *.
  assert (O3 : off (labels M) b <= length (ungroup M)) by (pose proof (off_le (labels M) b) as H; rewrite labels_concat, map_length in H; exact H).
  rewrite extend_ok by (rewrite ?singles_length; auto; apply off_mono; lia). f_equal.
  assert (E1 : sub M a b = ungroup [(key, vg)]) by (unfold M, a, b; rewrite sub_ungroup_range by lia; rewrite S1; reflexivity).
  assert (E2 : sub (ungroup M) (off (labels M) a) (off (labels M) b) = rows [(key, vg)]) by (rewrite sub_ungroup_range by lia; rewrite E1; reflexivity).
  rewrite push_values_open, <- map_sub, S1, !labels_sub, S1, E1, <- map_app. f_equal.
  - rewrite <- labels_app, <- app_assoc. reflexivity.
  - rewrite <- labels_app, <- ungroup_app, <- app_assoc. reflexivity.
  - unfold singles at 2. rewrite <- map_sub. fold (singles (sub (ungroup M) (off (labels M) a) (off (labels M) b))). rewrite E2, <- singles_app, <- !ungroup_app, <- app_assoc. reflexivity.
Qed.

(** ** The loops *)
Section Loops.
Context (hash : K -> nat) (n : nat) (Hn : 0 < n) (src : list (list Ent)).
Definition dest (e : Ent) : nat := hash (fst e) mod n.
Definition mine (i : nat) (l : list Ent) : list Ent := filter (fun e => dest e =? i) l.
Lemma dest_lt e : dest e < n.
Proof. apply Nat.mod_upper_bound. lia. Qed.
Lemma route_keys_ok (G : list Ent) : forall k m (done : nat -> list (list Ent)) (cur : nat -> list Ent), m = length G -> sub (concat src) k (k + m) = G -> Forall full_entry G -> k + m <= length (concat src) ->
  route_keys hash (otrie src []) n (seq k m) (map (fun i => otrie (done i) (cur i)) (seq 0 n)) = Some (map (fun i => otrie (done i) (cur i ++ mine i G)) (seq 0 n)).
Proof.
  induction G as [|e G IH]; intros k m done cur -> HS HF HL.
  { cbn [length seq route_keys]. f_equal. apply map_ext. intros i. cbn. rewrite app_nil_r. reflexivity. }
  cbn [length] in *. cbn [seq route_keys]. destruct (get_some (concat src) k) as (e' & Ee); [lia|]. unfold get in Ee. rewrite (sub_cons (concat src) k (k + S (length G)) e' Ee) in HS by lia. injection HS as -> HS. pose proof (Forall_inv HF) as He. pose proof (Forall_inv_tail HF) as HF'.
  assert (Ek : get (ls_values (u_keys (otrie src []))) k = Some (fst e)) by (unfold get, otrie; cbn [u_keys map open_of ls_values]; rewrite app_nil_r, concat_map_fst, nth_error_map, Ee; reflexivity).
  rewrite Ek, route_mod by auto. fold (dest e). rewrite get_seq by apply dest_lt. rewrite (extend_entry _ _ _ _ e Ee He). rewrite upd_seq by apply dest_lt. cbn [Nat.add].
  rewrite (map_ext _ (fun i => otrie (done i) (if i =? dest e then cur i ++ [e] else cur i))).
  2:{ intros i. destruct (Nat.eqb_spec i (dest e)) as [->|]; reflexivity. }
  rewrite (IH (S k) (length G) done (fun i => if i =? dest e then cur i ++ [e] else cur i)); auto; [|replace (S k + length G) with (k + S (length G)) by lia; auto|lia].
  f_equal. apply map_ext. intros i. unfold mine. cbn [filter]. rewrite (Nat.eqb_sym i). destruct (Nat.eqb_spec (dest e) i); [rewrite <- app_assoc|]; reflexivity.
Qed.
Definition seal_group (gs : list (list Ent)) (g : list Ent) : list (list Ent) := match g with [] => gs | _ => gs ++ [g] end.
Lemma seal_grown_ok gs g : seal_grown (otrie gs g) (length (concat (map (map fst) gs))) = otrie (seal_group gs g) [].
Proof.
  unfold seal_grown. replace (ls_values (u_keys (otrie gs g))) with (concat (map (map fst) gs) ++ map fst g) by reflexivity. rewrite app_length, map_length. destruct g as [|e g].
  - rewrite Nat.add_0_r, Nat.ltb_irrefl. reflexivity.
  - rewrite (proj2 (Nat.ltb_lt _ _)) by (cbn; lia). unfold otrie. cbn [u_keys u_vals u_times u_diffs seal_group]. rewrite seal_open, map_app, concat_app. cbn [map concat]. rewrite !app_nil_r, lists_open. reflexivity.
Qed.
Lemma keys_len gs g : length (ls_values (u_keys (otrie gs g))) = length (concat gs) + length g.
Proof. unfold otrie. cbn [u_keys open_of ls_values]. rewrite app_length, concat_map_fst, !map_length. reflexivity. Qed.
Lemma combine_map {X Y Z} (f : X -> Y) (g : X -> Z) (l : list X) : List.combine (map f l) (map g l) = map (fun x => (f x, g x)) l.
Proof. induction l; cbn; congruence. Qed.
Lemma route_groups_ok : forall todo pre (done : nat -> list (list Ent)), src = pre ++ todo -> Forall full_entry (concat src) ->
  route_groups hash (otrie src []) n (seq (length pre) (length todo)) (map (fun i => otrie (done i) []) (seq 0 n)) = Some (map (fun i => otrie (fold_left (fun gs G => seal_group gs (mine i G)) todo (done i)) []) (seq 0 n)).
Proof.
  induction todo as [|G todo IH]; intros pre done HE HF; [reflexivity|]. cbn [length seq route_groups].
  assert (EC : child_range (ls_bounds (u_keys (otrie src []))) (length pre) = Some (off src (length pre), off src (S (length pre)))).
  { unfold otrie. cbn [u_keys map]. rewrite <- lists_open. rewrite child_range_ok by (rewrite map_length, HE, app_length; cbn; lia). assert (O : forall j, off (map (map fst) src) j = off src j) by (intros j; unfold off; rewrite firstn_map, concat_map_fst, map_length; reflexivity). rewrite !O. reflexivity. }
  rewrite EC. assert (EG : nth_error src (length pre) = Some G) by (rewrite HE, nth_error_app2, Nat.sub_diag by auto; reflexivity). pose proof (off_S _ _ _ EG) as O. pose proof (sub_group _ _ _ EG) as SG. rewrite O in SG |- *.
  replace (off src (length pre) + length G - off src (length pre)) with (length G) by lia.
  rewrite (route_keys_ok G (off src (length pre)) (length G) done (fun _ => [])); auto.
  2:{ rewrite HE, concat_app in HF. apply Forall_app in HF as [_ HF]. cbn [concat] in HF. apply Forall_app in HF. tauto. }
  2:{ rewrite <- O. apply off_le. }
  rewrite map_map, combine_map, map_map. rewrite (map_ext _ (fun i => otrie (seal_group (done i) (mine i G)) [])).
  2:{ intros i. cbn [fst snd app]. rewrite keys_len. cbn [length]. rewrite Nat.add_0_r. replace (length (concat (done i))) with (length (concat (map (map fst) (done i)))) by (rewrite concat_map_fst, map_length; reflexivity). apply seal_grown_ok. }
  replace (S (length pre)) with (length (pre ++ [G])) by (rewrite app_length; cbn; lia). rewrite (IH (pre ++ [G]) (fun i => seal_group (done i) (mine i G))); auto. rewrite HE, <- app_assoc. reflexivity.
Qed.
Lemma sealed_concat i todo : forall gs, concat (fold_left (fun gs G => seal_group gs (mine i G)) todo gs) = concat gs ++ mine i (concat todo).
Proof.
  induction todo as [|G todo IH]; intros gs; cbn [fold_left concat]; [cbn; rewrite app_nil_r; reflexivity|]. rewrite IH. unfold mine at 3. rewrite filter_app. fold (mine i G). fold (mine i (concat todo)). rewrite app_assoc. f_equal.
  unfold seal_group. destruct (mine i G); [rewrite app_nil_r; reflexivity|]. rewrite concat_app. cbn [concat]. rewrite app_nil_r. reflexivity.
Qed.
Lemma rows_mine i (N : list Ent) : rows (mine i N) = filter (fun x : U => hash (fst (fst (fst x))) mod n =? i) (rows N).
Proof.
  induction N as [|[key vg] N IH]; [reflexivity|]. rewrite ungroup_cons, ungroup_app, filter_app, <- IH. unfold mine. cbn [filter]. unfold dest at 1. cbn [fst].
  assert (F : filter (fun x : U => hash (fst (fst (fst x))) mod n =? i) (ungroup (map (fun y => (key, fst y, snd y)) vg)) = if hash key mod n =? i then ungroup (map (fun y => (key, fst y, snd y)) vg) else []).
  { clear. induction vg as [|[v l] vg IH]; [destruct (_ =? _); reflexivity|]. cbn [map fst snd]. rewrite ungroup_cons, filter_app, IH. destruct (hash key mod n =? i) eqn:E; [f_equal|rewrite app_nil_r]; clear IH; induction l as [|[t d] l IH]; cbn [map filter fst snd]; try reflexivity; rewrite E; [f_equal|]; exact IH. }
  rewrite F. destruct (hash key mod n =? i); [rewrite ungroup_cons, ungroup_app; reflexivity|reflexivity].
Qed.
End Loops.

(** ** Tries that were formed, and tries that were pushed to *)
Lemma otrie_root N : otrie (root N) [] = trie_of_nest N.
Proof. unfold otrie, trie_of_nest, cols. cbn [map]. rewrite <- lists_open, concat_root, app_nil_r. f_equal. destruct N; reflexivity. Qed.
Lemma formed_groups (u : Upd) l : holds u l -> exists N, u = otrie (root N) [] /\ l = rows N /\ well_nested N.
Proof.
  intros H. destruct (holds_nest _ _ H) as (N & -> & -> & W). exists N. split; auto. symmetry. apply otrie_root.
Qed.
Definition lone (x : U) : Ent := let '(k, v, t, d) := x in (k, [(v, [(t, d)])]).
Lemma rows_lone l : rows (map lone l) = l.
Proof. induction l as [|[[[k v] t] d] l IH]; [reflexivity|]. cbn [map lone]. rewrite ungroup_cons, ungroup_app, IH. reflexivity. Qed.
Lemma concat_lone l : concat (map (fun x => [lone x]) l) = map lone l.
Proof. induction l; cbn; congruence. Qed.
Lemma pushed_groups (l : list U) : fold_left updates_push l updates_new = otrie (map (fun x => [lone x]) l) [].
Proof.
  rewrite push_all_raw. unfold raw, otrie. cbn [map]. rewrite app_nil_r, concat_lone, rows_lone, <- lists_open. f_equal; f_equal.
  - rewrite map_map. apply map_ext. intros [[[k v] t] d]. reflexivity.
  - unfold labels. rewrite map_map. apply map_ext. intros [[[k v] t] d]. reflexivity.
  - induction l as [|[[[k v] t] d] l IH]; [reflexivity|]. cbn [map lone]. rewrite ungroup_cons. cbn [map app fst snd]. rewrite labels_cons, <- IH. reflexivity.
Qed.
Lemma well_nested_mine hash n i N : well_nested N -> well_nested (mine hash n i N).
Proof.
  intros [W1 W2 W3]. split.
  - unfold mine. clear -W1. induction N as [|e N IH]; [constructor|]. cbn [map] in W1. apply strictly_sorted_cons_inv in W1 as [H HF]. cbn [filter]. destruct (dest hash n e =? i); auto. cbn [map].
    specialize (IH H). remember (filter (fun e => dest hash n e =? i) N) as N'. destruct N' as [|e' N']; [constructor|]. cbn [map] in *. constructor; auto. rewrite Forall_forall in HF. apply HF. apply in_map. assert (In e' (filter (fun e => dest hash n e =? i) N)) as Hin by (rewrite <- HeqN'; left; auto). apply filter_In in Hin. tauto.
  - apply filter_Forall. auto.
  - rewrite Forall_forall in *. intros p Hp. apply W3. unfold ungroup in *. rewrite in_flat_map in *. destruct Hp as (e & He & Hp). exists e. split; auto. apply filter_In in He. tauto.
Qed.
Lemma nested_full N : well_nested N -> Forall full_entry N.
Proof.
  intros [_ W2 W3]. rewrite Forall_forall in *. intros [k g] He. split; [apply (W2 _ He)|]. apply Forall_forall. intros [v l] Hv. cbn [snd] in *. apply (W3 (k, v, l)). unfold ungroup. apply in_flat_map. exists (k, g). split; auto. apply in_map_iff. exists (v, l). auto.
Qed.
Lemma fold_root hash n i N : fold_left (fun gs G => seal_group gs (mine hash n i G)) (root N) [] = root (mine hash n i N).
Proof. destruct N as [|e N]; [reflexivity|]. cbn [root fold_left]. unfold seal_group. destruct (mine hash n i (e :: N)); reflexivity. Qed.
Lemma fold_lone hash n i l : forall gs, fold_left (fun gs G => seal_group gs (mine hash n i G)) (map (fun x => [lone x]) l) gs = gs ++ map (fun x => [lone x]) (filter (fun x : U => hash (fst (fst (fst x))) mod n =? i) l).
Proof.
  induction l as [|[[[k v] t] d] l IH]; intros gs; cbn [map fold_left filter fst]; [rewrite app_nil_r; reflexivity|]. rewrite IH. unfold mine. cbn [filter lone]. unfold dest. cbn [fst]. destruct (hash k mod n =? i); cbn [seal_group map]; [rewrite <- app_assoc|]; reflexivity.
Qed.
(** What each destination gets. *)
Definition share (hash : K -> nat) (n i : nat) (l : list U) : list U := filter (fun x => hash (fst (fst (fst x))) mod n =? i) l.
Lemma repeat_map {X} (x : X) n : repeat x n = map (fun _ => x) (seq 0 n).
Proof. generalize 0 as s. induction n as [|n IH]; intros s; cbn; [reflexivity|]. rewrite (IH (S s)). reflexivity. Qed.
Lemma routed hash n (c : Rec) : 0 < n -> rec_made c -> exists outs, route_groups hash (ru_updates c) n (seq 0 (length (ls_bounds (u_keys (ru_updates c))))) (repeat updates_new n) = Some (map outs (seq 0 n)) /\
  forall i, i < n -> (length (ls_values (u_keys (outs i))) = 0 <-> share hash n i (rec_rows c) = []) /\ forall records, let m := {| ru_updates := outs i; ru_records := records; ru_consolidated := ru_consolidated c |} in rec_made m /\ rec_rows m = share hash n i (rec_rows c).
Proof.
  intros Hn HM. assert (EN : updates_new (K:=K) (V:=V) (T:=T) (R:=R) = otrie [] []) by reflexivity. rewrite repeat_map, EN.
  assert (G : forall src, ru_updates c = otrie src [] -> Forall full_entry (concat src) -> route_groups hash (ru_updates c) n (seq 0 (length (ls_bounds (u_keys (ru_updates c))))) (map (fun _ => otrie [] []) (seq 0 n)) =
    Some (map (fun i => otrie (fold_left (fun gs G => seal_group gs (mine hash n i G)) src []) []) (seq 0 n))).
  { intros src E HF. rewrite E. replace (length (ls_bounds (u_keys (otrie src [])))) with (length src) by (unfold otrie; cbn [u_keys open_of ls_bounds]; rewrite ends_length, map_length; reflexivity). exact (route_groups_ok hash n Hn src src [] (fun _ => []) eq_refl HF). }
  assert (Len : forall N, length (ls_values (u_keys (otrie N []))) = 0 -> Forall full_entry (concat N) -> rows (concat N) = []).
  { intros N E _. rewrite keys_len in E. cbn in E. destruct (concat N); [reflexivity|cbn in E; lia]. }
  assert (Len2 : forall N, rows (concat N) = [] -> Forall full_entry (concat N) -> length (ls_values (u_keys (otrie N []))) = 0).
  { intros N E HF. rewrite keys_len. destruct (concat N) as [|[k vg] N']; [reflexivity|]. exfalso. inversion HF as [|? ? [H1 H2] _]; subst. cbn [snd] in *. destruct vg as [|[v l] vg]; [congruence|]. inversion H2 as [|? ? H3 _]; subst. cbn [snd] in H3. destruct l as [|[t d] l]; [congruence|]. rewrite ungroup_cons in E. cbn in E. discriminate. }
  destruct (rec_cases c HM) as [[HC Hh]|[Hf E]].
  - destruct (formed_groups _ _ Hh) as (N & E & ER & W). pose proof (nested_full _ W) as HF. rewrite (G (root N) E) by (rewrite concat_root; auto). eexists. split; [reflexivity|]. intros i Hi. cbv beta. rewrite fold_root.
    assert (Ei : share hash n i (rec_rows c) = rows (mine hash n i N)) by (rewrite ER; symmetry; apply rows_mine).
    assert (HF' : Forall full_entry (concat (root (mine hash n i N)))) by (rewrite concat_root; apply filter_Forall; auto).
    split.
    + rewrite Ei. split; intros H; [apply Len in H; auto; rewrite concat_root in H; exact H|apply Len2; auto; rewrite concat_root; exact H].
    + intros records m. rewrite Ei. apply made_holds.
      * cbn [ru_updates]. pose proof (nest_holds _ (well_nested_mine hash n i N W)) as Hm. unfold m. cbn [ru_updates]. rewrite otrie_root. exact Hm.
      * rewrite <- Ei. unfold share. destruct HC as [H1 H2]. split; [|apply filter_Forall; auto]. clear -H1. induction (rec_rows c) as [|x l IH]; [constructor|]. cbn [map] in H1. apply strictly_sorted_cons_inv in H1 as [H HF]. cbn [filter]. destruct (_ =? i); auto. cbn [map]. specialize (IH H).
        remember (filter _ l) as l'. destruct l' as [|y l']; [constructor|]. cbn [map] in *. constructor; auto. rewrite Forall_forall in HF. apply HF. apply in_map. assert (In y (y :: l')) as Hin by (left; auto). rewrite Heql' in Hin. apply filter_In in Hin. tauto.
  - assert (HF : forall l, Forall full_entry (concat (map (fun x => [lone x]) l))) by (intros l; rewrite concat_lone; apply Forall_map, Forall_forall; intros [[[k v] t] d] _; split; [discriminate|repeat constructor; discriminate]).
    rewrite (G (map (fun x => [lone x]) (rec_rows c))) by (auto; rewrite E at 1; apply pushed_groups). eexists. split; [reflexivity|]. intros i Hi. cbv beta. rewrite fold_lone. cbn [app]. fold (share hash n i (rec_rows c)). split.
    + split; intros H; [apply Len in H; auto|apply Len2; auto]; rewrite concat_lone, rows_lone in *; exact H.
    + intros records. apply made_pushed; auto. cbn [ru_updates]. symmetry. apply pushed_groups.
Qed.
Lemma push_outputs_ok flag (outs : nat -> Upd) : forall n s r, length (push_outputs r flag (map outs (seq s n))) = n /\
  (forall i, i < n -> exists records, nth_error (push_outputs r flag (map outs (seq s n))) i = Some (if 0 <? length (ls_values (u_keys (outs (s + i)))) then Some {| ru_updates := outs (s + i); ru_records := records; ru_consolidated := flag |} else None) /\ (1 <= r -> 1 <= records)) /\
  records_of (push_outputs r flag (map outs (seq s n))) = let ne := length (filter (fun o => 0 <? length (ls_values (u_keys o))) (map outs (seq s n))) in match ne with 0 => 0 | S m => r + m end.
Proof.
  induction n as [|n IH]; intros s r; [split; [reflexivity|]; split; [intros; lia|reflexivity]|]. cbn [seq map push_outputs filter]. destruct (0 <? length (ls_values (u_keys (outs s)))) eqn:E.
  - destruct (IH (S s) 1) as (L & H & HR). cbn [length]. split; [congruence|]. split.
    + intros [|i] Hi; [exists r; rewrite Nat.add_0_r, E; auto|]. destruct (H i) as (records & E2 & H2); [lia|]. exists records. cbn [nth_error]. rewrite E2. replace (S s + i) with (s + S i) by lia. auto.
    + match goal with |- records_of (?h :: ?t) = _ => change (records_of (h :: t)) with (r + records_of t) end. rewrite HR. cbv zeta. cbn [length]. destruct (length (filter _ _)); lia.
  - destruct (IH (S s) r) as (L & H & HR). cbn [length]. split; [congruence|]. split.
    + intros [|i] Hi; [exists 1; rewrite Nat.add_0_r, E; auto|]. destruct (H i) as (records & E2 & H2); [lia|]. exists records. cbn [nth_error]. rewrite E2. replace (S s + i) with (s + S i) by lia. auto.
    + exact HR.
Qed.
Definition busy (hash : K -> nat) (n : nat) (l : list U) : list nat := filter (fun i => match share hash n i l with [] => false | _ => true end) (seq 0 n).
Lemma distribute_ok hash n (c : Rec) : 0 < n -> rec_made c -> exists outs, distribute hash n c = Some outs /\ length outs = n /\
  (forall i, i < n -> match nth_error outs i with
     | Some (Some m) => share hash n i (rec_rows c) <> [] /\ rec_made m /\ rec_rows m = share hash n i (rec_rows c) /\ ru_consolidated m = ru_consolidated c /\ (length (busy hash n (rec_rows c)) <= ru_records c -> 1 <= ru_records m)
     | Some None => share hash n i (rec_rows c) = []
     | None => False end) /\
  records_of outs = match length (busy hash n (rec_rows c)) with 0 => 0 | S m => ru_records c - m + m end.
Proof.
  intros Hn HM. destruct (routed hash n c Hn HM) as (outs & E & HR). unfold distribute. rewrite E. eexists. split; [reflexivity|].
  assert (EB : forall i, i < n -> (0 <? length (ls_values (u_keys (outs i)))) = match share hash n i (rec_rows c) with [] => false | _ => true end).
  { intros i Hi. destruct (HR i Hi) as [H _]. destruct (share hash n i (rec_rows c)); [apply Nat.ltb_ge; rewrite (proj2 H); auto|]. apply Nat.ltb_lt. destruct (length (ls_values (u_keys (outs i)))); [|lia]. discriminate (proj1 H eq_refl). }
  assert (EN : length (filter (fun o => 0 <? length (ls_values (u_keys o))) (map outs (seq 0 n))) = length (busy hash n (rec_rows c))).
  { unfold busy. assert (H : forall i, In i (seq 0 n) -> i < n) by (intros i Hi; apply in_seq in Hi; lia). revert H. generalize (seq 0 n). intros l H. induction l as [|i l IH]; [reflexivity|]. cbn [map filter]. rewrite EB by (apply H; left; auto). destruct (share hash n i (rec_rows c)); cbn [length]; [|f_equal]; apply IH; intros; apply H; right; auto. }
  rewrite EN. destruct (push_outputs_ok (ru_consolidated c) outs n 0 (ru_records c - (length (busy hash n (rec_rows c)) - 1))) as (L & H & HS). split; auto. split.
  - intros i Hi. destruct (H i Hi) as (records & E2 & H2). rewrite E2. cbn [Nat.add]. rewrite EB by auto. destruct (HR i Hi) as [_ HRi]. destruct (share hash n i (rec_rows c)) eqn:ES; auto. destruct (HRi records) as [M1 M2]. split; [discriminate|]. split; auto. split; auto. split; auto. cbn [ru_records]. intros HL. apply H2.
    assert (1 <= length (busy hash n (rec_rows c))). { assert (Hin : In i (busy hash n (rec_rows c))) by (unfold busy; apply filter_In; split; [apply in_seq; lia|rewrite ES; auto]). destruct (busy hash n (rec_rows c)); [contradiction|cbn; lia]. } lia.
  - rewrite HS, EN. cbv zeta. destruct (length (busy hash n (rec_rows c))); auto. rewrite Nat.sub_succ, Nat.sub_0_r. reflexivity.
Qed.
Lemma busy_length hash n (l : list U) : length (busy hash n l) <= length l.
Proof.
  assert (H : exists f, incl (busy hash n l) (map f l)). { exists (fun x : U => hash (fst (fst (fst x))) mod n). intros i Hi. apply filter_In in Hi as [_ Hi]. destruct (share hash n i l) as [|x r] eqn:E; [discriminate|]. assert (Hx : In x (share hash n i l)) by (rewrite E; left; auto). apply filter_In in Hx as [Hx Ei]. apply Nat.eqb_eq in Ei. apply in_map_iff. exists x. auto. }
  destruct H as [f H]. rewrite <- (map_length f l). apply NoDup_incl_length; auto. apply NoDup_filter, seq_NoDup.
Qed.
Lemma busy_nonempty hash n (l : list U) : 0 < n -> l <> [] -> busy hash n l <> [].
Proof.
  intros Hn Hl E. destruct l as [|x l]; [congruence|]. assert (Hin : In (hash (fst (fst (fst x))) mod n) (busy hash n (x :: l))).
  { apply filter_In. split; [apply in_seq; pose proof (Nat.mod_upper_bound (hash (fst (fst (fst x)))) n); lia|]. cbn [share filter]. rewrite Nat.eqb_refl. reflexivity. } rewrite E in Hin. contradiction.
Qed.
End Dist.
