(** * Columnar containers: their operations, the builder, the chunker and the distributor *)
From Coq Require Import Arith Lia.
From Verif Require Import Base.Arrays Base.Collections Spec.Collection Spec.ColumnarSpec Spec.ColCollSpec Proofs.ConsolidationP.
From Verif Require Import Model.ColumnarM Model.ColCollM Proofs.ColListsP Proofs.ColTrieP Proofs.ColMeldP Proofs.ColReadP Proofs.ColChunkP Proofs.ColAdvanceP.
From Verif Require Import Base.Order.

Lemma ends_map {X Y} (f : X -> Y) gs : forall a, ends a (map (map f) gs) = ends a gs.
Proof. induction gs as [|g gs IH]; intros a; [reflexivity|]. cbn [map ends]. rewrite map_length, IH. reflexivity. Qed.
Lemma lists_map {X Y} (f : X -> Y) gs : {| ls_bounds := ls_bounds (lists_of gs); ls_values := map f (ls_values (lists_of gs)) |} = lists_of (map (map f) gs).
Proof. unfold lists_of. cbn [ls_bounds ls_values]. rewrite ends_map, concat_map. reflexivity. Qed.

Section Rec.
Context {K V T R : Type} {OK : Ord K} {OV : Ord V} {TT : Time T} {DR : Diff R}.
Local Notation U := (K * V * T * R)%type.
Local Notation Upd := (Updates K V T R).
Local Notation Rec := (RecordedUpdates K V T R).

(** ** Made containers are read back *)
Lemma formed_read (l : list U) u : consolidated (A:=K*V*T) l -> form l = Some u -> holds u l /\ updates_iter u = Some l.
Proof. intros HC F. destruct (form_fixed l HC) as (u' & F' & H). rewrite F in F'. injection F' as <-. split; auto. apply updates_iter_ok; auto. Qed.
Lemma rec_read (c : Rec) : rec_made c -> updates_iter (ru_updates c) = Some (rec_rows c).
Proof.
  unfold rec_rows. intros [(l & HC & F)|(_ & l & ->)]; [destruct (formed_read _ _ HC F) as [_ ->]; reflexivity|rewrite push_all_read; reflexivity].
Qed.
Lemma rec_cases (c : Rec) : rec_made c -> (consolidated (A:=K*V*T) (rec_rows c) /\ holds (ru_updates c) (rec_rows c)) \/ (ru_consolidated c = false /\ ru_updates c = fold_left updates_push (rec_rows c) updates_new).
Proof.
  unfold rec_rows. intros [(l & HC & F)|(H & l & E)]; [left|right].
  - destruct (formed_read _ _ HC F) as [H ->]. auto.
  - split; auto. rewrite E, push_all_read. reflexivity.
Qed.
Lemma push_len (l : list U) : updates_len (fold_left updates_push l updates_new) = length l.
Proof. rewrite push_all_raw. unfold updates_len. cbn [raw u_diffs lists_of ls_values]. rewrite concat_singles, map_length. reflexivity. Qed.
Lemma rec_len (c : Rec) : rec_made c -> updates_len (ru_updates c) = length (rec_rows c).
Proof. intros H. destruct (rec_cases c H) as [[_ H1]|[_ ->]]; [apply holds_len; auto|]. apply push_len. Qed.
Lemma made_holds (c : Rec) l : holds (ru_updates c) l -> consolidated (A:=K*V*T) l -> rec_made c /\ rec_rows c = l.
Proof. intros H HC. split; [left; exists l; split; auto; apply holds_form; auto|]. unfold rec_rows. rewrite (updates_iter_ok _ _ H). reflexivity. Qed.
Lemma made_pushed (c : Rec) l : ru_updates c = fold_left updates_push l updates_new -> ru_consolidated c = false -> rec_made c /\ rec_rows c = l.
Proof. intros E H. split; [right; eauto|]. unfold rec_rows. rewrite E, push_all_read. reflexivity. Qed.
Lemma rec_flag (c : Rec) : rec_made c -> ru_consolidated c = true -> consolidated (A:=K*V*T) (rec_rows c).
Proof. intros H E. destruct (rec_cases c H) as [[H1 _]|[H1 _]]; auto. congruence. Qed.

(** ** Negation *)
Definition neg_row {AR : Abelian R} (x : U) : U := (fst x, dneg (snd x)).
Lemma singles_map (f : R -> R) (us : list U) : singles (map (fun x : U => (fst x, f (snd x))) us) = map (map f) (singles us).
Proof. unfold singles. rewrite !map_map. reflexivity. Qed.
Lemma is_zero_neg {AR : Abelian R} (d : R) : is_zero (dneg d) = is_zero d.
Proof.
  destruct (is_zero d) eqn:E; [apply is_zero_spec in E; subst; rewrite dneg_zero; apply is_zero_spec; reflexivity|].
  destruct (is_zero (dneg d)) eqn:E2; auto. apply is_zero_spec in E2. rewrite <- E. symmetry. apply is_zero_spec. rewrite <- (dneg_involutive d), E2. apply dneg_zero.
Qed.
Lemma negate_ok {AR : Abelian R} (c : Rec) : rec_made c -> rec_made (ru_negate c) /\ rec_rows (ru_negate c) = map neg_row (rec_rows c).
Proof.
  intros H. destruct (rec_cases c H) as [[HC Hh]|[Hf E]].
  - apply made_holds.
    + destruct Hh as (ks & vs & ts & HS & E & P). exists ks, vs, ts. split; auto. unfold ru_negate. cbn [ru_updates]. rewrite E. cbn [cols u_keys u_vals u_times u_diffs]. rewrite lists_map. split.
      * unfold cols. f_equal. unfold neg_row. rewrite singles_map. reflexivity.
      * rewrite P, map_map. reflexivity.
    + destruct HC as [H1 H2]. split; [rewrite map_map; exact H1|]. rewrite Forall_map. eapply Forall_impl; [|exact H2]. intros x Hx. unfold neg_row. cbn [snd]. rewrite is_zero_neg. exact Hx.
  - apply made_pushed; [|exact Hf]. unfold ru_negate. cbn [ru_updates]. rewrite E, !push_all_raw. unfold raw. cbn [u_keys u_vals u_times u_diffs]. rewrite lists_map. unfold neg_row. rewrite !map_map, singles_map. reflexivity.
Qed.

(** ** Results in *)
Definition stepped (step : T -> option T) (l : list U) : list U := flat_map (fun x : U => let '(k, v, t, d) := x in match step t with Some t => [(k, v, t, d)] | None => [] end) l.
Lemma results_in_ok step (c : Rec) : rec_made c -> exists c', ru_results_in step c = Some c' /\ rec_made c' /\ rec_rows c' = stepped step (rec_rows c) /\ ru_records c' = ru_records c /\ ru_consolidated c' = false.
Proof.
  intros H. unfold ru_results_in. rewrite (rec_read c H). eexists. split; [reflexivity|]. cbn [ru_records ru_consolidated].
  match goal with |- rec_made ?c' /\ _ => destruct (made_pushed c' (stepped step (rec_rows c))) as [M E] end; auto. cbn [ru_updates]. generalize (updates_new (K:=K) (V:=V) (T:=T) (R:=R)). induction (rec_rows c) as [|[[[k v] t] d] l IH]; intros u; [reflexivity|].
  cbn [fold_left stepped flat_map]. rewrite fold_left_app. fold (stepped step l). destruct (step t); apply IH.
Qed.

(** ** The builder *)
Section Builder.
Context (srt : list U -> list U) (Hp : forall l, Permutation (srt l) l) (Hs : forall l, key_sorted (A:=K*V*T) (srt l)) (target : nat).
Definition batch_of (seg : list U) (c : Rec) : Prop :=
  rec_made c /\ ru_consolidated c = true /\ consolidated (A:=K*V*T) (rec_rows c) /\ same_weights (A:=K*V*T) (rec_rows c) seg /\ ru_records c = length seg /\ counted c /\ 0 < length seg <= S target.
Lemma consolidate_length {A} {OA : Ord A} (l : list (A * R)) : length (consolidate l) <= length l.
Proof.
  unfold consolidate. assert (L : length (isort l) = length l) by (apply Permutation_length, isort_perm). rewrite <- L. generalize (isort l). clear L l. intros l. unfold compact. destruct l as [|x l]; [auto|]. revert x.
  induction l as [|y l IH]; intros x; cbn [compact_go length].
  - unfold keep_nonzero. destruct (is_zero (snd x)); cbn; lia.
  - destruct (eqb (fst y) (fst x)).
    + specialize (IH (fst x, dplus (snd x) (snd y))). cbn [length] in IH. lia.
    + rewrite app_length. specialize (IH y). cbn [length] in IH. unfold keep_nonzero. destruct (is_zero (snd x)); cbn [length]; lia.
Qed.
Lemma form_srt (l : list U) : exists u, form (srt l) = Some u /\ holds u (consolidate (A:=K*V*T) l).
Proof. pose proof (compact_srt srt Hp Hs l) as E. destruct (form_ok (srt l)) as (u & F & H); [rewrite E; apply consolidate_consolidated|]. rewrite E in H. eauto. Qed.
(* the items pushed are those of the containers pending, and the current ones *)
Definition vb_inv (b : ValBuilder K V T R) (segs : list (list U)) (items : list U) : Prop :=
  Forall2 batch_of segs (vb_pending b) /\ items = concat segs ++ vb_current b /\ length (vb_current b) <= target.
Lemma flush_ok (b : ValBuilder K V T R) segs : Forall2 batch_of segs (vb_pending b) -> 0 < length (vb_current b) <= S target ->
  exists b', vb_flush srt b = Some b' /\ vb_inv b' (segs ++ [vb_current b]) (concat segs ++ vb_current b) /\ vb_current b' = [].
Proof.
  intros HF HL. unfold vb_flush. destruct (form_srt (vb_current b)) as (u & F & H). rewrite F. eexists. split; [reflexivity|]. split; [|reflexivity].
  split; [|split; cbn [vb_current]; [rewrite concat_app; cbn; rewrite !app_nil_r; reflexivity|cbn; lia]]. cbn [vb_pending]. apply Forall2_app; auto. constructor; auto.
  match goal with |- batch_of _ ?c => destruct (made_holds c _ H (consolidate_consolidated _)) as [M E] end. split; auto. split; auto. unfold counted. rewrite E. split; [apply consolidate_consolidated|]. split; [apply consolidate_weight|]. split; auto. split; [apply consolidate_length|auto].
Qed.
Lemma vb_push_ok b segs items x : vb_inv b segs items -> exists b' more, vb_push srt target b x = Some b' /\ vb_inv b' (segs ++ more) (items ++ [x]).
Proof.
  intros (H1 & -> & H3). unfold vb_push. cbn [vb_current]. rewrite app_length. cbn [length]. destruct (Nat.ltb_spec target (length (vb_current b) + 1)) as [L|L].
  - match goal with |- context [vb_flush _ ?b0] => destruct (flush_ok b0 segs) as (b' & E & H & _) end; [exact H1|cbn [vb_current]; rewrite app_length; cbn; lia|]. exists b', [vb_current b ++ [x]]. rewrite E. split; auto. rewrite <- app_assoc. exact H.
  - eexists _, []. split; [reflexivity|]. rewrite app_nil_r. split; [exact H1|]. cbn [vb_current]. split; [rewrite <- app_assoc; reflexivity|rewrite app_length; cbn; lia].
Qed.
Lemma vb_extract_ok b segs items : vb_inv b segs items -> match vb_extract b with
  | (b', None) => b' = b /\ segs = [] | (b', Some c) => exists seg segs', segs = seg :: segs' /\ batch_of seg c /\ vb_inv b' segs' (concat segs' ++ vb_current b') /\ vb_current b' = vb_current b /\ S (length (vb_pending b')) = length (vb_pending b) end.
Proof.
  intros (H1 & -> & H3). unfold vb_extract. destruct (vb_pending b) as [|c pending] eqn:E; [inversion H1; auto|]. inversion H1 as [|seg ? segs' ? HB HF]; subst. exists seg, segs'. split; auto. split; auto. split; [split; auto|]. cbn. auto.
Qed.
Lemma vb_finish_ok b segs items : vb_inv b segs items -> exists b' given more, vb_finish srt b = Some (b', given) /\ vb_current b' = [] /\
  match given with None => segs = [] /\ items = [] /\ vb_pending b' = [] | Some c => exists seg segs', segs ++ more = seg :: segs' /\ batch_of seg c /\ vb_inv b' segs' (concat segs') /\ items = concat (seg :: segs') /\ length segs' < length segs + match vb_current b with [] => 0 | _ => 1 end end.
Proof.
  intros HI. pose proof HI as (H1 & -> & H3). unfold vb_finish. destruct (vb_current b) as [|x cur] eqn:E.
  - pose proof (vb_extract_ok _ _ _ HI) as HX. destruct (vb_extract b) as [b' [c|]] eqn:EX; exists b'; eexists; exists []; (split; [reflexivity|]).
    + destruct HX as (seg & segs' & -> & HB & HI' & HC & _). rewrite HC, E in HI'. split; [congruence|]. exists seg, segs'. rewrite app_nil_r in *. split; auto. split; auto. split; auto. split; [rewrite ?app_nil_r; reflexivity|cbn; lia].
    + destruct HX as [-> ->]. split; auto. split; auto. split; auto. inversion H1. auto.
  - destruct (flush_ok b segs H1) as (b1 & Ef & HI1 & HC1); [rewrite E; cbn in *; lia|]. rewrite Ef. pose proof (vb_extract_ok _ _ _ HI1) as HX. rewrite E in HI1, HX. destruct (vb_extract b1) as [b' [c|]] eqn:EX; exists b'; eexists; exists [x :: cur]; (split; [reflexivity|]).
    + destruct HX as (seg & segs' & Es & HB & HI' & HC & _). rewrite HC, HC1, app_nil_r in HI'. split; [congruence|]. exists seg, segs'. split; auto. split; auto. split; auto. rewrite <- Es, concat_app. cbn [concat]. rewrite app_nil_r. split; auto. apply (f_equal (@length _)) in Es. rewrite app_length in Es. cbn in Es. lia.
    + destruct HX as [_ HX]. destruct segs; discriminate.
Qed.
Lemma vb_run_ok ops : forall b segs items, vb_inv b segs items -> exists b' out done segs', vb_run srt target b ops = Some (b', out) /\ Forall2 batch_of done out /\
  vb_inv b' segs' (concat segs' ++ vb_current b') /\ items ++ vb_pushed ops = concat done ++ concat segs' ++ vb_current b'.
Proof.
  induction ops as [|o ops IH]; intros b segs items HI; cbn [vb_run].
  - exists b, [], [], segs. split; auto. split; auto. pose proof HI as (H1 & -> & H3). split; auto. cbn. rewrite app_nil_r. reflexivity.
  - destruct o as [x| |].
    + destruct (vb_push_ok _ _ _ x HI) as (b1 & more & E & HI1). rewrite E. destruct (IH _ _ _ HI1) as (b' & out & done & segs' & E' & HF & HI' & HE). rewrite E'. exists b', out, done, segs'. split; auto. split; auto. split; auto. rewrite <- HE. cbn [vb_pushed flat_map]. rewrite <- !app_assoc. reflexivity.
    + pose proof (vb_extract_ok _ _ _ HI) as HX. destruct (vb_extract b) as [b1 [c|]].
      * destruct HX as (seg & segs1 & -> & HB & HI1 & HC & _). destruct (IH _ _ _ HI1) as (b' & out & done & segs' & E' & HF & HI' & HE). rewrite E'. exists b', (c :: out), (seg :: done), segs'. split; auto. split; auto. split; auto.
        pose proof HI as (_ & -> & _). cbn [vb_pushed flat_map concat app]. rewrite <- !app_assoc. f_equal. rewrite <- HE, HC, <- !app_assoc. reflexivity.
      * destruct HX as [-> ->]. destruct (IH _ _ _ HI) as (b' & out & done & segs' & E' & HF & HI' & HE). rewrite E'. exists b', out, done, segs'. auto.
    + destruct (vb_finish_ok _ _ _ HI) as (b1 & given & more & E & HC & HX). rewrite E. destruct given as [c|].
      * destruct HX as (seg & segs1 & Es & HB & HI1 & Ei & _). destruct (IH _ _ _ HI1) as (b' & out & done & segs' & E' & HF & HI' & HE). rewrite E'. exists b', (c :: out), (seg :: done), segs'. split; auto. split; auto. split; auto.
        rewrite Ei. cbn [vb_pushed flat_map concat app]. rewrite <- !app_assoc. f_equal. exact HE.
      * destruct HX as (-> & -> & HP). destruct (IH b1 [] []) as (b' & out & done & segs' & E' & HF & HI' & HE); [split; [rewrite HP; constructor|]; rewrite HC; cbn; split; auto; lia|]. rewrite E'. exists b', out, done, segs'. auto.
Qed.
Lemma vb_drain_ok fuel : forall b segs items, vb_inv b segs items -> length segs + (match vb_current b with [] => 0 | _ => 1 end) < fuel -> exists b' out done, vb_drain srt fuel b = Some (b', out) /\ Forall2 batch_of done out /\ items = concat done /\ vb_current b' = [] /\ vb_pending b' = [].
Proof.
  induction fuel as [|fuel IH]; intros b segs items HI HL; [lia|]. cbn [vb_drain]. destruct (vb_finish_ok _ _ _ HI) as (b1 & given & more & E & HC & HX). rewrite E. destruct given as [c|].
  - destruct HX as (seg & segs1 & Es & HB & HI1 & -> & Hl). destruct (IH _ _ _ HI1) as (b' & out & done & E' & HF & HE & HC' & HP'); [rewrite HC; lia|]. rewrite E'. exists b', (c :: out), (seg :: done). split; auto. split; auto. split; auto. cbn [concat]. congruence.
  - destruct HX as (-> & -> & HP). exists b1, [], []. auto.
Qed.
Lemma segs_length segs l : Forall2 batch_of segs l -> length l <= length (concat segs).
Proof. induction 1 as [|seg c segs l HB HF IH]; [cbn; lia|]. cbn [concat length]. rewrite app_length. destruct HB as (_ & _ & _ & _ & _ & _ & HL). lia. Qed.
(** Whatever the client does, what it is lent are the consolidations of stretches of what it pushed. *)
Lemma builder_ok ops : exists b out, vb_run srt target vb_default ops = Some (b, out) /\ exists b' rest segs, vb_drain srt (length (vb_pushed ops) + 2) b = Some (b', rest) /\
  Forall2 batch_of segs (out ++ rest) /\ concat segs = vb_pushed ops /\ vb_finish srt b' = Some (b', None).
Proof.
  destruct (vb_run_ok ops vb_default [] []) as (b & out & done & segs & E & HF & HI & HE); [split; [constructor|cbn; split; auto; lia]|]. exists b, out. split; auto. cbn [app] in HE.
  pose proof HI as (H1 & _ & _). destruct (vb_drain_ok (length (vb_pushed ops) + 2) _ _ _ HI) as (b' & rest & done' & E' & HF' & HE' & HC & HP).
  { pose proof (segs_length _ _ H1) as L. assert (Ls : length segs = length (vb_pending b)) by (clear -H1; induction H1; cbn; congruence). rewrite HE, !app_length. destruct (vb_current b); lia. }
  exists b', rest, (done ++ done'). split; auto. split; [apply Forall2_app; auto|]. split; [rewrite concat_app, HE; congruence|]. unfold vb_finish, vb_extract. rewrite HC, HP. reflexivity.
Qed.
Lemma session_ok items : exists out segs, vb_session srt target items = Some out /\ Forall2 batch_of segs out /\ concat segs = items.
Proof.
  assert (EP : vb_pushed (K:=K) (V:=V) (T:=T) (R:=R) (map VPush items) = items) by (unfold vb_pushed; induction items; cbn; congruence).
  destruct (builder_ok (map VPush items)) as (b & out & E & b' & rest & segs & E' & HF & HE & _). rewrite EP in *. unfold vb_session. rewrite E, E'.
  assert (out = []) as ->. { clear -E. revert E. generalize (vb_default (K:=K) (V:=V) (T:=T) (R:=R)). revert out b. induction items as [|x l IH]; intros out b b0 E; cbn in E; [congruence|].
    destruct (vb_push srt target b0 x); [|discriminate]. destruct (vb_run _ _ _ _) as [[b1 out1]|] eqn:E1; [|discriminate]. injection E as <- <-. eapply IH; eauto. }
  exists rest, segs. auto.
Qed.
End Builder.
End Rec.
