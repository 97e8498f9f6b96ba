(** * Columnar chunks: merging, extracting, settling *)
From Coq Require Import Arith Lia.
From Verif Require Import Base.Arrays Base.Collections Spec.Collection Spec.ColumnarSpec Proofs.LatticeP Proofs.ConsolidationP Proofs.MergeBatcherP Proofs.PackP.
From Verif Require Import Proofs.ColListsP Proofs.ColSurveyP Proofs.ColTrieP Proofs.ColPairP Proofs.ColMeldP Proofs.ColReadP.
From Verif Require Import Base.Order.

Section Chunk.
Context {K V T R : Type} {OK : Ord K} {OV : Ord V} {TT : Time T} {DR : Diff R}.
Local Notation U := (K * V * T * R)%type.
Local Notation Upd := (Updates K V T R).
Local Notation Chk := (ColChunk K V T R).
Implicit Types (c : Chk) (u : Upd).

Definition paged_ok c (us : list U) : Prop :=
  match c with
  | Resident _ => True
  | Paged m _ => m_len m = length us /\ nth_error (map fst us) 0 = Some (m_first m) /\ nth_error (map fst us) (length us - 1) = Some (m_last m)
  end.
Definition chunk_of c (us : list U) : Prop := holds (into_trie c) us /\ consolidated (A:=K*V*T) us /\ paged_ok c us.
Lemma chunk_rows c us : chunk_of c us -> col_rows c = us.
Proof. intros (H & _). unfold col_rows. rewrite (updates_iter_ok _ _ H). reflexivity. Qed.
Lemma made_of c : col_made c <-> chunk_of c (col_rows c).
Proof.
  split.
  - intros ((l & HC & E) & HP). destruct (form_fixed l HC) as (u & E' & H). rewrite E' in E. injection E as E. subst u.
    assert (col_rows c = l) as El by (unfold col_rows; rewrite (updates_iter_ok _ _ H); reflexivity). split; [rewrite El; exact H|]. split; [rewrite El; exact HC|]. destruct c; auto.
  - intros (H & HC & HP). split; [|destruct c; auto]. exists (col_rows c). split; auto. apply holds_form; auto.
Qed.
Lemma of_made c us : chunk_of c us -> col_made c /\ col_rows c = us.
Proof. intros H. pose proof (chunk_rows _ _ H) as E. split; auto. apply made_of. rewrite E. auto. Qed.
Lemma resident_of u us : holds u us -> consolidated (A:=K*V*T) us -> chunk_of (Resident u) us.
Proof. intros H HC. split; auto. split; auto. exact I. Qed.
Lemma emit_ok u us : holds u us -> consolidated (A:=K*V*T) us -> updates_of col_rows (emit u) = us /\ all_nonempty col_made col_rows (emit u) /\ length (emit u) <= 1.
Proof.
  intros H HC. unfold emit. rewrite (holds_len _ _ H). destruct us as [|x us]; [cbn; repeat split; auto; constructor|].
  change (0 <? length (x :: us)) with true. cbv iota. destruct (of_made _ _ (resident_of _ _ H HC)) as [M E]. unfold updates_of. cbn [flat_map]. rewrite E, app_nil_r. split; auto. split; auto. constructor; [|constructor]. split; auto. rewrite E. discriminate.
Qed.

(** ** The ends of a trie *)
Lemma last_of_app {X} (l : list X) x : last_of (l ++ [x]) = Some x.
Proof. unfold last_of. rewrite app_length, Nat.add_comm. cbn [length Nat.add]. unfold get. rewrite nth_error_app2, Nat.sub_diag by lia. reflexivity. Qed.
Lemma ends_of_ok u us f l : holds u us -> nth_error us 0 = Some f -> nth_error us (length us - 1) = Some l -> ends_of u = Some (fst f, fst l).
Proof.
  intros (ks & vs & ts & HS & -> & E) Hf Hl. assert (Hn : us <> []) by (intros ->; discriminate).
  assert (Hts : ts <> []) by (intros ->; destruct (shaped_nil _ _ _ HS eq_refl) as [-> ->]; destruct us; [congruence|discriminate]).
  destruct (shaped_first _ _ _ HS Hts) as (ks2' & k2 & vs2' & vg2 & v2 & ts2' & tg2 & t2 & Ek2 & Ev2 & Et2 & _ & _ & P & EP).
  destruct (shaped_last _ _ _ HS Hts) as (ks' & k & vs' & vg & v & ts' & tg & t & Ek & Ev & Et & _ & _ & EQ).
  assert (Ff : fst f = (k2, v2, t2)). { rewrite E in EP. destruct us; [congruence|]. injection Hf as ->. injection EP as EP _. auto. }
  assert (Fl : fst l = (k, v, t)).
  { rewrite E, app_assoc in EQ. destruct us as [|y us' _] using rev_ind; [congruence|]. rewrite map_app in EQ. cbn [map] in EQ. apply app_inj_tail in EQ as [_ EQ].
    rewrite app_length, Nat.add_comm in Hl. cbn [length Nat.add] in Hl. rewrite Nat.sub_succ, Nat.sub_0_r, nth_error_app2, Nat.sub_diag in Hl by lia. injection Hl as ->. auto. }
  unfold ends_of. cbn [cols u_keys u_vals u_times lists_of ls_values]. rewrite concat_root, Ff, Fl.
  assert (L1 : last_of ks = Some k) by (rewrite Ek; apply last_of_app).
  assert (L2 : last_of (concat vs) = Some v) by (rewrite Ev, concat_app; cbn [concat]; rewrite app_nil_r, app_assoc; apply last_of_app).
  assert (L3 : last_of (concat ts) = Some t) by (rewrite Et, concat_app; cbn [concat]; rewrite app_nil_r, app_assoc; apply last_of_app).
  rewrite L1, L2, L3. rewrite Ek2, Ev2, Et2. reflexivity.
Qed.
Lemma seal_ok spiller c : col_made c -> col_rows c <> [] -> exists c', seal_chunk spiller c = Some c' /\ col_made c' /\ col_rows c' = col_rows c.
Proof.
  intros M N. destruct c as [u|m u]; [|exists (Paged m u); auto]. unfold seal_chunk. destruct spiller as [takes|]; [|exists (Resident u); auto].
  pose proof (proj1 (made_of _) M) as (H & HC & _). remember (col_rows (Resident u)) as us eqn:Eus. cbn [into_trie] in H.
  assert (L : 0 < length us) by (destruct us; [congruence|cbn; lia]).
  destruct (get_some us 0 L) as (f & Ef). destruct (get_some us (length us - 1)) as (l & El); [lia|]. unfold get in Ef, El.
  unfold meta_of. rewrite (ends_of_ok _ _ f l H Ef El). eexists. split; [reflexivity|].
  assert (C : chunk_of (if takes u then Paged {| m_first := fst f; m_last := fst l; m_len := updates_len u |} u else Resident u) us).
  { destruct (takes u); [|apply resident_of; auto]. split; auto. split; auto. cbn [paged_ok m_len m_first m_last]. rewrite (holds_len _ _ H), !nth_error_map, Ef, El. auto. }
  destruct (of_made _ _ C); auto.
Qed.
Lemma len_made c : col_made c -> col_len c = length (col_rows c).
Proof. intros M. apply made_of in M as (H & _ & P). destruct c as [u|m u]; cbn in *; [apply holds_len; auto|tauto]. Qed.
Lemma bounds_made c f l : col_made c -> nth_error (col_rows c) 0 = Some f -> nth_error (col_rows c) (length (col_rows c) - 1) = Some l -> col_bounds c = Some (fst f, fst l).
Proof.
  intros M Hf Hl. apply made_of in M as (H & _ & P). destruct c as [u|m u]; cbn [col_bounds]; [eapply ends_of_ok; eauto|]. cbn [paged_ok] in P. rewrite !nth_error_map, Hf, Hl in P. cbn in P.
  destruct P as (_ & P1 & P2). congruence.
Qed.
(** What a chunk's rows are is preserved when it is read back. *)

(** ** Merging *)
Lemma front_before (l : list Chk) : chain col_made col_rows l -> forall c r, l = c :: r -> chunk_of c (col_rows c) /\ col_rows c <> [] /\ chain col_made col_rows r /\
  (forall x y, In x (col_rows c) -> In y (updates_of col_rows r) -> lt (A:=K*V*T) (fst x) (fst y)).
Proof.
  intros [HN HC] c r ->. inversion HN as [|? ? [HM HE] HN2]; subst. unfold updates_of in HC. cbn [flat_map] in HC. apply consolidated_app in HC as (C1 & C2 & C3).
  split; [apply made_of; auto|]. split; auto. split; [split; auto|exact C3].
Qed.
Lemma suffix_emit (us : list U) n sv (input : list Chk) : n <= length us -> consolidated (A:=K*V*T) us ->
  (if n =? length us then sv = None else exists cu u s, sv = Some (cu, u) /\ suffix_chunk cu u = Some s /\ holds s (skipn n us)) ->
  all_nonempty col_made col_rows input ->
  exists input', push_back_suffix sv input = Some input' /\ updates_of col_rows input' = skipn n us ++ updates_of col_rows input /\ all_nonempty col_made col_rows input' /\
    length input' <= S (length input) /\ (n = length us -> length input' = length input).
Proof.
  intros HL HC HS HN. destruct (Nat.eqb_spec n (length us)) as [->|Hne].
  - subst sv. exists input. rewrite skipn_all. cbn. repeat split; auto.
  - destruct HS as (cu & u & s & -> & E & H). cbn [push_back_suffix]. rewrite E.
    assert (HCs : consolidated (A:=K*V*T) (skipn n us)) by (rewrite <- (firstn_skipn n us) in HC; apply consolidated_app in HC; tauto).
    destruct (emit_ok s _ H HCs) as (E1 & E2 & E3). eexists. split; [reflexivity|]. unfold updates_of in *. rewrite flat_map_app, E1. split; auto. split; [apply Forall_app; auto|].
    rewrite app_length. split; [lia|congruence].
Qed.
Lemma col_merge_law (in1 in2 : list Chk) : chain col_made col_rows in1 -> chain col_made col_rows in2 -> in1 <> [] -> in2 <> [] ->
    exists in1' in2' out front1 front2, col_merge in1 in2 = Some (in1', in2', out) /\
      updates_of col_rows in1 = front1 ++ updates_of col_rows in1' /\ updates_of col_rows in2 = front2 ++ updates_of col_rows in2' /\
      consolidated (A:=K*V*T) (updates_of col_rows out) /\ same_weights (A:=K*V*T) (updates_of col_rows out) (front1 ++ front2) /\
      length (updates_of col_rows out) <= length front1 + length front2 /\
      all_before front1 (updates_of col_rows in2') /\ all_before front2 (updates_of col_rows in1') /\
      (forall x, In x front1 -> exists y, In y (updates_of col_rows in2) /\ le (A:=K*V*T) (fst x) (fst y)) /\
      (forall x, In x front2 -> exists y, In y (updates_of col_rows in1) /\ le (A:=K*V*T) (fst x) (fst y)) /\
      all_nonempty col_made col_rows in1' /\ all_nonempty col_made col_rows in2' /\ all_nonempty col_made col_rows out /\
      length in1' <= length in1 /\ length in2' <= length in2 /\ length in1' + length in2' < length in1 + length in2.
Proof.
  intros H1 H2 N1 N2. destruct in1 as [|c1 in1]; [congruence|]. destruct in2 as [|c2 in2]; [congruence|].
  destruct (front_before _ H1 _ _ eq_refl) as ((HH1 & HC1 & _) & HE1 & (HN1 & _) & HB1). destruct (front_before _ H2 _ _ eq_refl) as ((HH2 & HC2 & _) & HE2 & (HN2 & _) & HB2).
  destruct (merge_pair_ok _ _ _ _ HH1 HH2 HE1 HE2 (proj2 HC1) (proj2 HC2)) as ([[out cu1] cu2] & a & b & Em & M). cbn [merged] in M.
  set (us1 := col_rows c1) in *. set (us2 := col_rows c2) in *.
  destruct M as (La & Lb & (o & rows & Eo & Ho & Hc & Hw & Hl) & B1 & B2 & G1 & G2 & Hab & S1 & S2).
  destruct (suffix_emit us1 a cu1 in1 La HC1 S1 HN1) as (i1 & E1 & R1 & A1 & L1 & L1'). destruct (suffix_emit us2 b cu2 in2 Lb HC2 S2 HN2) as (i2 & E2 & R2 & A2 & L2 & L2').
  destruct (emit_ok o rows Ho Hc) as (O1 & O2 & O3).
  exists i1, i2, (emit o), (firstn a us1), (firstn b us2). cbn [col_merge]. rewrite Em, Eo, E1, E2. split; [reflexivity|]. rewrite O1, R1, R2.
  assert (F1 : updates_of col_rows (c1 :: in1) = us1 ++ updates_of col_rows in1) by reflexivity. assert (F2 : updates_of col_rows (c2 :: in2) = us2 ++ updates_of col_rows in2) by reflexivity.
  rewrite F1, F2, !app_assoc, !firstn_skipn. split; auto. split; auto. split; auto. split; auto. split; [rewrite !firstn_length; lia|].
  assert (I1 : forall x, In x (firstn a us1) -> In x us1) by (intros x Hx; rewrite <- (firstn_skipn a us1); apply in_or_app; auto).
  assert (I2 : forall x, In x (firstn b us2) -> In x us2) by (intros x Hx; rewrite <- (firstn_skipn b us2); apply in_or_app; auto).
  split; [|split; [|split; [|split; [|split; [|split; [|split; [|split; [|split]]]]]]]]; auto.
  - intros x y Hx Hy. apply in_app_or in Hy as [Hy|Hy]; [auto|]. destruct (G1 x Hx) as (z & Hz & Hxz). eapply le_lt_trans; [exact Hxz|auto].
  - intros x y Hx Hy. apply in_app_or in Hy as [Hy|Hy]; [auto|]. destruct (G2 x Hx) as (z & Hz & Hxz). eapply le_lt_trans; [exact Hxz|auto].
  - intros x Hx. destruct (G1 x Hx) as (y & Hy & Hxy). exists y. split; auto. apply in_or_app. auto.
  - intros x Hx. destruct (G2 x Hx) as (y & Hy & Hxy). exists y. split; auto. apply in_or_app. auto.
  - cbn [length]. destruct Hab as [Ha|Hb]; [specialize (L1' Ha)|specialize (L2' Hb)]; lia.
Qed.

(** ** Extracting *)
Lemma extract_bits frontier (l : list T) : forall residual bits,
  fold_left (fun x time => if ac_less_equal frontier time then (ac_insert (fst x) time, snd x ++ [true]) else (fst x, snd x ++ [false])) l (residual, bits) =
  (ac_extend residual (filter (beyondb frontier) l), bits ++ map (beyondb frontier) l).
Proof.
  induction l as [|t l IH]; intros residual bits; cbn [fold_left filter map]; [cbn; rewrite app_nil_r; auto|].
  change (ac_less_equal frontier t) with (beyondb frontier t). destruct (beyondb frontier t); cbn [fst snd]; rewrite IH, <- app_assoc; reflexivity.
Qed.
Lemma holds_times_of u us : holds u us -> ls_values (u_times u) = map time_of us.
Proof.
  intros (ks & vs & ts & HS & -> & E). cbn [cols u_times lists_of ls_values]. rewrite <- (expand_snd (expand ks vs) ts) by (apply vpaths_ts; auto). fold (paths ks vs ts). rewrite E, map_map. reflexivity.
Qed.
Lemma filter_all {X} (f : X -> bool) l : forallb (fun b => b) (map f l) = true -> filter f l = l /\ filter (fun x => negb (f x)) l = [].
Proof. induction l as [|x l IH]; cbn [map forallb filter]; auto. intros H. apply andb_prop in H as [-> H]. destruct (IH H) as [-> ->]. auto. Qed.
Lemma filter_none {X} (f : X -> bool) l : forallb negb (map f l) = true -> filter f l = [] /\ filter (fun x => negb (f x)) l = l.
Proof. induction l as [|x l IH]; cbn [map forallb filter]; auto. intros H. apply andb_prop in H as [Hx H]. destruct (f x); [discriminate|]. destruct (IH H) as [-> ->]. auto. Qed.
Lemma filter_map_time frontier (us : list U) : filter (beyondb frontier) (map time_of us) = map time_of (filter (fun x => beyondb frontier (time_of x)) us).
Proof. induction us as [|x us IH]; cbn [map filter]; auto. destruct (beyondb frontier (time_of x)); cbn [map]; rewrite IH; auto. Qed.
Lemma extract_one_ok u us frontier residual : holds u us -> consolidated (A:=K*V*T) us ->
  exists kept shipped, extract_one u frontier residual = Some (ac_extend residual (map time_of (filter (fun x => beyondb frontier (time_of x)) us)), kept, shipped) /\
    updates_of col_rows (flat_map emit kept) = filter (fun x => beyondb frontier (time_of x)) us /\ all_nonempty col_made col_rows (flat_map emit kept) /\
    updates_of col_rows (flat_map emit shipped) = filter (fun x => negb (beyondb frontier (time_of x))) us /\ all_nonempty col_made col_rows (flat_map emit shipped).
Proof.
  intros H HC. unfold extract_one. rewrite (holds_times_of _ _ H), extract_bits. cbn [app]. rewrite map_map, filter_map_time.
  destruct (emit_ok u us H HC) as (E1 & E2 & _).
  assert (Q : forall w : Upd, flat_map emit [w] = emit w) by (intros w; cbn; apply app_nil_r).
  destruct (forallb (fun x => x) (map (fun x : U => beyondb frontier (time_of x)) us)) eqn:Fa; [destruct (filter_all (fun x : U => beyondb frontier (time_of x)) us Fa) as [F1 F2]|].
  { exists [u], []. rewrite Q, F1, F2. split; auto. split; auto. split; auto. split; [reflexivity|constructor]. }
  destruct (forallb negb (map (fun x : U => beyondb frontier (time_of x)) us)) eqn:Fb; [destruct (filter_none (fun x : U => beyondb frontier (time_of x)) us Fb) as [F1 F2]|].
  { exists [], [u]. rewrite Q, F1, F2. split; auto. split; [reflexivity|]. split; [constructor|]. split; auto. }
  destruct (retain_ok u us (map (fun x : U => beyondb frontier (time_of x)) us) H) as (a & Ea & Ha); [apply map_length|]. destruct (retain_ok u us (map negb (map (fun x : U => beyondb frontier (time_of x)) us)) H) as (b & Eb & Hb); [rewrite !map_length; reflexivity|].
  rewrite choose_map in Ha. rewrite map_map, choose_map in Hb. rewrite map_map in Eb. rewrite map_map. rewrite Ea, Eb. exists [a], [b]. rewrite !Q.
  destruct (emit_ok a _ Ha) as (A1 & A2 & _); [apply (consolidated_filter (D:=K*V)); auto|]. destruct (emit_ok b _ Hb) as (B1 & B2 & _); [apply (consolidated_filter (D:=K*V)); auto|]. auto 6.
Qed.
Lemma col_extract_law (input : list Chk) frontier residual : chain col_made col_rows input -> input <> [] -> antichain residual ->
    exists input' residual' keep ship front, col_extract input frontier residual = Some (input', residual', keep, ship) /\
      updates_of col_rows input = front ++ updates_of col_rows input' /\
      updates_of col_rows keep = filter (fun x => beyondb frontier (time_of x)) front /\
      updates_of col_rows ship = filter (fun x => negb (beyondb frontier (time_of x))) front /\
      antichain residual' /\ (forall t, beyond residual' t <-> beyond residual t \/ beyond (map time_of (updates_of col_rows keep)) t) /\
      all_nonempty col_made col_rows input' /\ all_nonempty col_made col_rows keep /\ all_nonempty col_made col_rows ship /\ length input' < length input.
Proof.
  intros H N HA. destruct input as [|c input]; [congruence|]. destruct (front_before _ H _ _ eq_refl) as ((HH & HC & _) & _ & (HN & _) & _).
  destruct (extract_one_ok _ _ frontier residual HH HC) as (kept & shipped & E & K1 & K2 & S1 & S2). cbn [col_extract]. rewrite E.
  eexists _, _, _, _, (col_rows c). split; [reflexivity|]. split; [reflexivity|]. split; auto. split; auto. split; [apply ac_extend_antichain; auto|]. split; [|split; auto].
  intros t. rewrite K1. apply ac_extend_beyond.
Qed.

(** ** Settling *)
Section Settle.
Variable target : nat.
Hypothesis Htarget : 0 < target.
Variable spiller : option (Upd -> bool).
Lemma good_combine a b : col_made a -> col_made b -> 0 < col_len a -> 0 < col_len b -> consolidated (A:=K*V*T) (col_rows a ++ col_rows b) -> col_len a + col_len b <= target ->
  exists c, col_combine a b = Some c /\ col_made c /\ col_rows c = col_rows a ++ col_rows b.
Proof.
  intros Ma Mb _ _ HC _. apply made_of in Ma as (Ha & _). apply made_of in Mb as (Hb & _). unfold col_combine.
  destruct (meld_pair_ok _ _ _ _ Ha Hb (proj1 HC)) as (u & E & H). rewrite E. eexists. split; [reflexivity|]. apply of_made. apply resident_of; auto.
Qed.
Lemma good_split c n : col_made c -> 0 < n <= col_len c -> exists a b, col_split c n = Some (a, b) /\ col_made a /\ col_made b /\ col_rows a = firstn n (col_rows c) /\ col_rows b = skipn n (col_rows c).
Proof.
  intros M _. apply made_of in M as (H & HC & _). unfold col_split. destruct (split_at_ok _ _ n H) as (a & b & E & Ha & Hb). rewrite E. rewrite <- (firstn_skipn n (col_rows c)) in HC. apply consolidated_app in HC as (C1 & C2 & _).
  destruct (of_made _ _ (resident_of _ _ Ha C1)) as [M1 R1]. destruct (of_made _ _ (resident_of _ _ Hb C2)) as [M2 R2]. eexists _, _. split; [reflexivity|]. auto.
Qed.
Definition col_settling (out queue : list Chk) : Prop := exists carry, queue = held carry /\ open col_made col_len target out carry.
Lemma nonempty_fit (l : list Chk) : all_nonempty col_made col_rows l <-> Forall (fun c => col_made c /\ 0 < col_len c) l.
Proof.
  unfold all_nonempty. split; (intros H; eapply Forall_impl; [|exact H]); cbn; intros c [M N]; (split; [auto|]); rewrite (len_made _ M) in *; destruct (col_rows c); try congruence; cbn in *; try lia; discriminate.
Qed.
Lemma col_settle_ok done out queue new : col_settling out queue -> all_nonempty col_made col_rows new -> consolidated (A:=K*V*T) (updates_of col_rows queue ++ updates_of col_rows new) ->
  exists carry' o, col_settle target spiller (queue ++ new) done = Some (held carry', o) /\
    updates_of col_rows queue ++ updates_of col_rows new = updates_of col_rows o ++ updates_of col_rows (held carry') /\
    (done = false -> col_settling (out ++ o) (held carry')) /\
    (done = true -> carry' = None /\ graded target (map col_len (out ++ o)) /\ all_nonempty col_made col_rows (out ++ o)).
Proof.
  intros (carry & -> & HO) HN HC. apply nonempty_fit in HN.
  destruct (pack_ok col_rows col_made (consolidated (A:=K*V*T)) col_len target col_combine col_split (seal_chunk spiller)) with (done := done) (out := out) (carry := carry) (new := new) as (carry' & o & E & Rw & H1 & H2); auto.
  { intros a b c H. apply consolidated_app in H as (_ & H & _). apply consolidated_app in H. tauto. }
  { apply len_made. }
  { apply good_combine. }
  { apply good_split. }
  { intros c M L. apply seal_ok; auto. rewrite (len_made _ M) in L. intros E. rewrite E in L. cbn in L. lia. }
  exists carry', o. split; auto. split; [symmetry; exact Rw|]. split.
  - intros Hd. exists carry'. auto.
  - intros Hd. destruct (H2 Hd) as (A1 & A2 & A3). split; auto. split; auto. apply nonempty_fit. exact A3.
Qed.
End Settle.
End Chunk.
