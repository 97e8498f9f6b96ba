(** * The cursor of a batch of chunks presents the batch, whatever the chunk boundaries *)
From Coq Require Import Arith Lia.
From Verif Require Import Base.Arrays Base.Collections Spec.ChunkCursorSpec Proofs.CursorP Proofs.TrieP Proofs.VecChunkP Proofs.FlatCursorP Proofs.VecCursorP.
From Verif Require Import Base.Order.

Section Chunks.
Context {C I K V T R : Type} {OK : Ord K} {OV : Ord V} {TT : Time T} {DR : Diff R}.
Local Notation U := (K * V * T * R)%type.
Variable ok : C -> Prop.
Variable rows : C -> list U.
Variable inner : CursorOps C I K V T R.
Variable fresh : C -> I.
Variable bounds : C -> option ((K * V) * (K * V)).
Hypothesis laws : NavigableLaws ok rows inner fresh bounds.
Variable cs : list C.
Hypothesis Hcs : chain (D:=K*V) ok rows cs.
Local Notation us := (updates_of (D:=K*V) rows cs).
Implicit Types (c : C) (i : nat) (k : K) (u : U).

Local Notation at_ i c := (nth_error cs i = Some c).
Local Notation has c u := (In u (rows c)).

Lemma split_at i c : at_ i c -> exists pre post, cs = pre ++ c :: post /\ length pre = i.
Proof. intros E. apply nth_error_split in E as (pre & post & E & L). eauto. Qed.

Lemma whole_rises : rises us.
Proof. apply consolidated_rises. apply Hcs. Qed.

Lemma chunk_order i j c c' u u' : i < j -> at_ i c -> at_ j c' -> has c u -> has c' u' -> le (fkv u) (fkv u').
Proof.
  intros Hij Ei Ej Hu Hu'. apply split_at in Ei as (pre & post & E & L). pose proof whole_rises as HR. unfold updates_of in HR. rewrite E, flat_map_app in HR.
  apply rises_app in HR as (_ & HR & _). cbn [flat_map] in HR. apply rises_app in HR as (_ & _ & HR). apply HR; auto.
  apply in_flat_map. exists c'. split; auto. rewrite E in Ej. rewrite nth_error_app2 in Ej by lia. destruct (j - length pre) as [|m] eqn:Em; [lia|]. cbn [nth_error] in Ej. eapply nth_error_In; eauto.
Qed.

Lemma chunk_made i c : at_ i c -> ok c.
Proof. intros E. destruct Hcs as [HN _]. apply nth_error_In in E. apply (proj1 (Forall_forall _ _) HN); auto. Qed.
Lemma chunk_ok i c : at_ i c -> rows c <> [] /\ consolidated (A:=K*V*T) (rows c).
Proof.
  intros E. destruct Hcs as [HN HC]. split.
  - apply nth_error_In in E. apply (proj1 (Forall_forall _ _) HN); auto.
  - apply split_at in E as (pre & post & E & _). unfold updates_of in HC. rewrite E, flat_map_app in HC. cbn [flat_map] in HC.
    apply consolidated_app in HC as (_ & HC & _). apply consolidated_app in HC as (HC & _). exact HC.
Qed.

Lemma chunk_ends i c : at_ i c -> exists f l, find (fun _ => true) (rows c) = Some f /\ has c f /\ has c l /\ bounds c = Some (fkv f, fkv l) /\
  forall u, has c u -> le (fkv f) (fkv u) /\ le (fkv u) (fkv l).
Proof.
  intros E. destruct (chunk_ok i c E) as [HN HC]. pose proof (consolidated_rises _ HC) as HR.
  destruct (nth_error (rows c) 0) as [f|] eqn:Ef; [|apply nth_error_None in Ef; destruct (rows c); [congruence|cbn in Ef; lia]].
  destruct (nth_error (rows c) (length (rows c) - 1)) as [l|] eqn:El; [|apply nth_error_None in El; destruct (rows c); [congruence|cbn [length] in El; lia]].
  exists f, l. split; [rewrite (find_split _ (rows c) 0); auto|]. split; [eapply nth_error_In; eauto|]. split; [eapply nth_error_In; eauto|].
  split; [apply (nv_bounds _ _ _ _ _ laws); auto; eapply chunk_made; eauto|]. intros u Hu. apply In_nth_error in Hu as (j & Ej).
  assert (j < length (rows c)) by (apply nth_error_Some; congruence). split; [apply (HR 0 j)|apply (HR j (length (rows c) - 1))]; auto; lia.
Qed.

Lemma key_le_of u u' : le (fkv u) (fkv u') -> le (fkey u) (fkey u').
Proof. rewrite !fkv_pair. intros H. apply le_pair in H as [H|[-> _]]; [apply lt_le; auto|apply le_refl]. Qed.
Lemma key_lt_of u k w : lt k (fkey u) -> lt (k, w) (fkv u).
Proof. intros H. rewrite fkv_pair. apply lt_pair; auto. Qed.

(** ** Cursors within a chunk *)
Definition lr c (x : I) (s : place) : Prop :=
  exists p, reached inner c (fresh c) (trie_of (rows c)) x p /\ in_range (trie_of (rows c)) p /\ sem (trie_of (rows c)) p = s.

Lemma lr_fresh i c : at_ i c -> lr c (fresh c) (at_first (find (fun _ => true) (rows c))).
Proof.
  intros E. destruct (chunk_ok i c E) as [HN HC]. pose proof (trie_of_wf _ HC) as W. destruct (sem_start _ W) as [H1 H2].
  exists start. split; [apply reached_start|]. split; auto. rewrite H2, flat_trie_of. reflexivity.
Qed.
Lemma lr_observe i c x s : at_ i c -> lr c x s -> c_observe inner c x = Some (fobs (rows c) s).
Proof.
  intros E (p & H1 & H2 & <-). destruct (chunk_ok i c E) as [HN HC]. pose proof (trie_of_wf _ HC) as W.
  rewrite (reached_observe inner _ _ _ _ _ (nv_cursor _ _ _ _ _ laws c (chunk_made _ _ E) HN HC) H1). rewrite observation_fobs, flat_trie_of by auto. reflexivity.
Qed.
Lemma lr_nav i c x s op : at_ i c -> lr c x s -> flegal s op -> exists x', c_nav inner c x op = Some x' /\ lr c x' (fmove (rows c) s op).
Proof.
  intros E (p & H1 & H2 & <-) HL. destruct (chunk_ok i c E) as [HN HC]. pose proof (trie_of_wf _ HC) as W.
  destruct (reached_nav inner _ _ _ _ _ op (nv_cursor _ _ _ _ _ laws c (chunk_made _ _ E) HN HC) H1) as (x' & E' & H').
  { apply legal_flegal; auto. }
  exists x'. split; auto. exists (move (trie_of (rows c)) p op). split; auto. split; [apply in_range_move; auto|]. rewrite sem_move, flat_trie_of; auto.
Qed.

Lemma observe_valid {St CC} (ops : CursorOps St CC K V T R) st x o : c_observe ops st x = Some o ->
  c_key_valid ops st x = Some (match o with Some _ => true | None => false end) /\
  match o with
  | Some (k, ov) => c_key ops st x = Some k /\ c_val_valid ops st x = Some (match ov with Some _ => true | None => false end) /\
      match ov with Some (v, ts) => c_val ops st x = Some v /\ c_map_times ops st x = Some ts | None => True end
  | None => True
  end.
Proof.
  unfold c_observe. destruct (c_get_key ops st x) as [[k1|]|]; try discriminate.
  2:{ destruct (c_key_valid ops st x) as [[]|]; try discriminate. intros H; inversion H; auto. }
  destruct (c_key_valid ops st x) as [kv|]; try discriminate.
  destruct (c_key ops st x) as [k2|]; try discriminate.
  destruct (c_get_val ops st x) as [vo'|]; try discriminate.
  destruct (c_val_valid ops st x) as [vv|]; try discriminate.
  destruct (eqb_spec k1 k2) as [->|]; simpl; try discriminate. destruct kv; try discriminate.
  destruct vo' as [v1|].
  - destruct (c_val ops st x) as [v2|]; try discriminate. destruct (c_map_times ops st x) as [ts'|]; try discriminate.
    destruct (eqb_spec v1 v2) as [->|]; simpl; try discriminate. destruct vv; try discriminate.
    intros H; inversion H; subst. auto.
  - destruct vv; try discriminate. intros H; inversion H; subst. auto.
Qed.

Lemma within_ok x i c y s op : at_ i c -> cbc_chunk x = i -> cbc_inner x = Some y -> lr c y s -> flegal s op ->
  exists y', cbc_within (fun c y => c_nav inner c y op) cs x = Some {| cbc_key_chunk := cbc_key_chunk x; cbc_chunk := i; cbc_inner := Some y' |} /\
    lr c y' (fmove (rows c) s op).
Proof.
  intros E Ei Ey Hl HL. destruct (lr_nav i c y s op E Hl HL) as (y' & E' & H'). exists y'. split; auto.
  unfold cbc_within. rewrite Ey, Ei. unfold get. rewrite E, E'. reflexivity.
Qed.

(** ** Searching the chunks *)
Lemma find_before (P : U -> bool) i c : at_ i c -> (forall j c' u, j < i -> at_ j c' -> has c' u -> P u = false) ->
  exists rest, find P us = find P (rows c ++ rest) /\ forall u, In u rest -> exists j c', i < j /\ at_ j c' /\ has c' u.
Proof.
  intros E HP. apply split_at in E as (pre & post & E & L). exists (flat_map rows post). split.
  - unfold updates_of. rewrite E at 1. rewrite flat_map_app. cbn [flat_map]. apply find_app_none. apply find_none_all. intros u Hu.
    apply in_flat_map in Hu as (c' & Hc' & Hu). apply In_nth_error in Hc' as (j & Ej). assert (j < length pre) by (apply nth_error_Some; congruence).
    apply (HP j c' u); auto; [lia|]. rewrite E, nth_error_app1; auto.
  - intros u Hu. apply in_flat_map in Hu as (c' & Hc' & Hu). apply In_nth_error in Hc' as (j & Ej). exists (i + S j), c'. split; [lia|]. split; auto.
    rewrite E, nth_error_app2 by lia. replace (i + S j - length pre) with (S j) by lia. exact Ej.
Qed.
Lemma find_here (P : U -> bool) i c u : at_ i c -> (forall j c' u, j < i -> at_ j c' -> has c' u -> P u = false) ->
  find P (rows c) = Some u -> find P us = Some u.
Proof. intros E HP Hf. destruct (find_before P i c E HP) as (rest & -> & _). apply find_app_some; auto. Qed.
Lemma find_nowhere (P : U -> bool) : (forall j c u, at_ j c -> has c u -> P u = false) -> find P us = None.
Proof. intros H. apply find_none_all. intros u Hu. apply in_flat_map in Hu as (c & Hc & Hu). apply In_nth_error in Hc as (j & Ej). eauto. Qed.

(** ** Spilling *)
Definition key_ends i k : Prop := forall j c u, i < j -> at_ j c -> has c u -> lt k (fkey u).
Definition val_ends i k w : Prop := forall j c u, i < j -> at_ j c -> has c u -> lt (k, w) (fkv u).

Lemma first_later j j' c c' f u : j <= j' -> at_ j c -> at_ j' c' -> find (fun _ => true) (rows c) = Some f -> has c' u -> le (fkv f) (fkv u).
Proof.
  intros Hj E E' Hf Hu. destruct (chunk_ends j c E) as (f' & l & Hf' & Hin & _ & _ & HE). rewrite Hf in Hf'. inversion Hf'; subst f'.
  apply Nat.le_lteq in Hj as [Hj| ->].
  - eapply chunk_order; eauto.
  - rewrite E in E'. inversion E'; subst. apply HE; auto.
Qed.

Lemma key_spills_ok i c c' k : at_ i c -> at_ (i + 1) c' -> (exists u, has c u /\ fkey u = k) ->
  exists b, key_spills bounds cs i k = Some b /\
    if (b : bool) then exists f, find (fun _ => true) (rows c') = Some f /\ has c' f /\ fkey f = k /\ exists l, has c l /\ fkey l = k /\ (forall u, has c u -> le (fkv u) (fkv l))
    else key_ends i k.
Proof.
  intros E E' (u & Hu & Ek). destruct (chunk_ends i c E) as (f & l & _ & _ & Hl & Eb & HE). destruct (chunk_ends _ c' E') as (f' & l' & Hf' & Hin' & _ & Eb' & HE').
  unfold key_spills, get. rewrite E, Eb. cbv beta iota. assert (Hkl : le k (fkey l)) by (rewrite <- Ek; apply key_le_of, HE; auto).
  change (fst (fkv l)) with (fkey l). destruct (eqb_spec (fkey l) k) as [El|El].
  - rewrite E', Eb'. cbv beta iota. change (fst (fkv f')) with (fkey f'). eexists. split; [reflexivity|]. destruct (eqb_spec (fkey f') k) as [Ef|Ef].
    + exists f'. split; auto. split; auto. split; auto. exists l. split; auto. split; auto. intros; apply HE; auto.
    + intros j cj x Hj Ej Hx. apply lt_le_trans with (fkey f').
      * assert (H : le (fkey l) (fkey f')) by (apply key_le_of; eapply (chunk_order i (i + 1)); eauto; lia). rewrite El in H. apply le_lteq in H as [H|H]; auto. congruence.
      * apply key_le_of. eapply (first_later (i + 1) j); eauto; lia.
  - eexists. split; [reflexivity|]. intros j cj x Hj Ej Hx. apply lt_le_trans with (fkey l).
    + apply le_lteq in Hkl as [H|H]; auto. congruence.
    + apply key_le_of. eapply (chunk_order i j); eauto.
Qed.

Lemma val_spills_ok i c c' k w : at_ i c -> at_ (i + 1) c' -> (exists u, has c u /\ fkv u = (k, w)) ->
  exists b, val_spills bounds cs i k w = Some b /\
    if (b : bool) then exists f, find (fun _ => true) (rows c') = Some f /\ has c' f /\ fkv f = (k, w)
    else val_ends i k w.
Proof.
  intros E E' (u & Hu & Ek). destruct (key_spills_ok i c c' k E E') as (b & Es & Hb).
  { exists u. split; auto. rewrite fkv_pair in Ek. inversion Ek; auto. }
  unfold val_spills. rewrite Es. destruct b.
  2:{ eexists. split; [reflexivity|]. intros j cj x Hj Ej Hx. apply key_lt_of. eapply Hb; eauto. }
  destruct Hb as (f & Hf & Hin & Ef & _).
  destruct (chunk_ends i c E) as (f0 & l & _ & _ & Hl & Eb & HE). destruct (chunk_ends _ c' E') as (f' & l' & Hf' & Hin' & _ & Eb' & HE').
  rewrite Hf in Hf'. inversion Hf'; subst f'. unfold get. rewrite E, Eb. cbv beta iota.
  assert (Hkl : le (k, w) (fkv l)) by (rewrite <- Ek; apply HE; auto).
  assert (Hlf : le (fkv l) (fkv f)) by (eapply (chunk_order i (i + 1)); eauto; lia).
  assert (Elk : fkey l = k).
  { apply le_antisym; [rewrite <- Ef; apply key_le_of; auto|]. rewrite fkv_pair in Hkl. apply le_pair in Hkl as [H|[-> _]]; [apply lt_le; auto|apply le_refl]. }
  change (snd (fkv l)) with (fval l). destruct (eqb_spec (fval l) w) as [El|El].
  - rewrite E', Eb'. cbv beta iota. change (snd (fkv f)) with (fval f). eexists. split; [reflexivity|]. destruct (eqb_spec (fval f) w) as [Efv|Efv].
    + exists f. rewrite fkv_pair, Ef, Efv. auto.
    + intros j cj x Hj Ej Hx. apply lt_le_trans with (fkv f).
      * apply le_lt_trans with (fkv l); auto. apply le_lteq in Hlf as [H|H]; auto. rewrite !fkv_pair in H. inversion H. congruence.
      * eapply (first_later (i + 1) j); eauto; lia.
  - eexists. split; [reflexivity|]. intros j cj x Hj Ej Hx. apply lt_le_trans with (fkv l).
    + apply le_lteq in Hkl as [H|H]; auto. rewrite fkv_pair in H. inversion H. congruence.
    + eapply (chunk_order i j); eauto.
Qed.

(** ** Moving to the last chunk of a run *)
Lemma to_last_ok (spills : nat -> option bool) (Good : nat -> C -> I -> Prop) (Stop : nat -> Prop) :
  (forall i c c' y, at_ i c -> at_ (i + 1) c' -> Good i c y -> exists b, spills i = Some b /\ if (b : bool) then Good (i + 1) c' (fresh c') else Stop i) ->
  (forall i, length cs <= i + 1 -> Stop i) ->
  forall fuel x i c y, at_ i c -> cbc_chunk x = i -> cbc_inner x = Some y -> Good i c y -> length cs <= fuel + i + 1 ->
  exists i' c' y', cbc_to_last fresh fuel spills cs x = Some {| cbc_key_chunk := cbc_key_chunk x; cbc_chunk := i'; cbc_inner := Some y' |} /\
    i <= i' /\ at_ i' c' /\ Good i' c' y' /\ Stop i'.
Proof.
  intros HG HS. induction fuel as [|fuel IH]; intros x i c y E Ei Ey Hg Hf; cbn [cbc_to_last]; rewrite Ei.
  - replace (i + 1 <? length cs) with false by (symmetry; apply Nat.ltb_ge; lia). exists i, c, y. split; [destruct x; cbn in *; congruence|]. split; [auto|]. split; [auto|]. split; [auto|]. apply HS; lia.
  - destruct (Nat.ltb_spec (i + 1) (length cs)) as [L|L].
    + destruct (nth_error cs (i + 1)) as [c'|] eqn:E'; [|apply nth_error_None in E'; lia].
      destruct (HG i c c' y E E' Hg) as (b & Eb & Hb). rewrite Eb. destruct b.
      * destruct (IH (cbc_goto fresh cs x (i + 1)) (i + 1) c' (fresh c') E') as (i' & c2 & y' & E2 & H1 & H2 & H3 & H4); auto.
        { unfold cbc_goto; cbn [cbc_inner]. unfold get. rewrite E'. reflexivity. }
        { lia. }
        exists i', c2, y'. split; [exact E2|]. split; [lia|auto].
      * exists i, c, y. split; [destruct x; cbn in *; congruence|]. auto.
    + exists i, c, y. split; [destruct x; cbn in *; congruence|]. split; [auto|]. split; [auto|]. split; [auto|]. apply HS; lia.
Qed.

(** ** Locating a key *)
Section Locate.
Variable key : K.
Definition below i : Prop := forall c u, at_ i c -> has c u -> lt (fkey u) key.
Lemma last_below_ok i : i < length cs -> exists b, last_below bounds cs key i = Some b /\ if (b : bool) then below i else exists c u, at_ i c /\ has c u /\ le key (fkey u).
Proof.
  intros Hi. destruct (nth_error cs i) as [c|] eqn:E; [|apply nth_error_None in E; lia]. destruct (chunk_ends i c E) as (f & l & _ & _ & Hl & Eb & HE).
  unfold last_below, get. rewrite E, Eb. cbv beta iota. change (fst (fkv l)) with (fkey l). eexists. split; [reflexivity|].
  destruct (ltb (fkey l) key) eqn:El.
  - apply ltb_lt in El. intros c' u E' Hu. rewrite E in E'. inversion E'; subst c'. eapply le_lt_trans; [|exact El]. apply key_le_of, HE; auto.
  - apply ltb_ge in El. exists c, l. auto.
Qed.
Lemma below_mono i j : i <= j -> j < length cs -> below j -> below i.
Proof.
  intros Hij Hj Hb c u E Hu. apply Nat.le_lteq in Hij as [Hij| ->]; [|eauto].
  destruct (nth_error cs j) as [c'|] eqn:E'; [|apply nth_error_None in E'; lia]. destruct (chunk_ends j c' E') as (f & _ & _ & Hf & _).
  eapply le_lt_trans; [|exact (Hb c' f E' Hf)]. apply key_le_of. eapply (chunk_order i j); eauto.
Qed.
Definition first_at lo : Prop := lo <= length cs /\ (forall j, j < lo -> below j) /\ (lo < length cs -> exists c u, at_ lo c /\ has c u /\ le key (fkey u)).

Lemma grow_ok fuel : forall prev step, prev < length cs -> below prev -> 0 < step -> length cs <= fuel + prev ->
  exists prev' step', locate_grow bounds fuel cs key prev step = Some (prev', step') /\ prev' < length cs /\ below prev' /\ 0 < step' /\
    (prev' + step' < length cs -> exists c u, at_ (prev' + step') c /\ has c u /\ le key (fkey u)).
Proof.
  induction fuel as [|fuel IH]; intros prev step Hp Hb Hs Hf; [lia|]. cbn [locate_grow].
  destruct (Nat.ltb_spec (prev + step) (length cs)) as [L|L].
  - destruct (last_below_ok _ L) as (b & Eb & HB). rewrite Eb. destruct b.
    + destruct (IH (prev + step) (2 * step)) as (p' & s' & H); auto; try lia. eauto.
    + exists prev, step. auto 6.
  - exists prev, step. split; [reflexivity|]. split; [exact Hp|]. split; [exact Hb|]. split; [exact Hs|]. intros; lia.
Qed.
Lemma search_ok fuel : forall a b, a <= b <= length cs -> b - a <= fuel -> (forall j, j < a -> below j) ->
  (b < length cs -> exists c u, at_ b c /\ has c u /\ le key (fkey u)) ->
  exists lo, locate_search bounds fuel cs key a b = Some lo /\ first_at lo.
Proof.
  induction fuel as [|fuel IH]; intros a b Hab Hf Ha Hb; cbn [locate_search]; destruct (Nat.ltb_spec a b) as [L|L]; try lia.
  - exists a. split; auto. assert (a = b) by lia. subst b. split; [lia|]. auto.
  - set (m := a + (b - a) / 2). assert (Hm : a <= m < b). { assert ((b - a) / 2 < b - a) by (apply Nat.div_lt; lia). unfold m; lia. }
    destruct (last_below_ok m) as (bb & Eb & HB); [lia|]. rewrite Eb. destruct bb.
    + apply IH; auto; try lia. intros j Hj. apply (below_mono j m); auto; lia.
    + apply IH; auto; lia.
  - exists a. split; auto. assert (a = b) by lia. subst b. split; [lia|]. auto.
Qed.
Lemma locate_ok hint : exists lo, locate_key bounds cs hint key = Some lo /\ first_at lo.
Proof.
  unfold locate_key. cbn zeta. set (n := length cs). set (h := Nat.min hint n).
  assert (Hlo : exists b, (if h =? 0 then Some true else last_below bounds cs key (h - 1)) = Some b /\ (b = true -> forall j, j < h -> below j)).
  { destruct (Nat.eqb_spec h 0) as [E0|E0]; [exists true; split; auto; intros; lia|].
    destruct (last_below_ok (h - 1)) as (b & Eb & HB); [unfold h, n in *; lia|]. exists b. split; auto. intros -> j Hj. apply (below_mono j (h - 1)); auto; unfold h, n in *; lia. }
  destruct Hlo as (b & -> & Hb). cbv beta iota. set (lo := if b then h else 0).
  assert (H0 : forall j, j < lo -> below j) by (unfold lo; destruct b; [apply Hb; auto|intros; lia]).
  assert (Hle : lo <= n) by (unfold lo, h; destruct b; lia).
  destruct (Nat.leb_spec n lo) as [L|L]; [exists lo; split; auto; split; [auto|]; split; [auto|]; intros; unfold n in *; lia|].
  destruct (last_below_ok lo L) as (bb & Eb & HB). rewrite Eb. destruct bb.
  2:{ exists lo. split; auto. split; [auto|]. split; auto. }
  destruct (grow_ok (S n) lo 1) as (p & s & Eg & H1 & H2 & H3 & H4); auto; try (unfold n; lia). rewrite Eg. cbv beta iota.
  apply search_ok.
  - unfold n; lia.
  - unfold n; lia.
  - intros j Hj. apply (below_mono j p); auto; lia.
  - intros Hlt. rewrite Nat.min_l in * by (unfold n in *; lia). apply H4. lia.
Qed.
End Locate.

(** ** The invariant *)
Definition cinv (x : ChunkBatchCursor I) (s : place) : Prop :=
  match s with
  | None => length cs <= cbc_chunk x \/ exists c y, at_ (cbc_chunk x) c /\ cbc_inner x = Some y /\ lr c y None
  | Some (k, ov) => exists c y, at_ (cbc_chunk x) c /\ cbc_inner x = Some y /\ lr c y (Some (k, ov)) /\
      (exists u, has c u /\ fkey u = k) /\
      (exists c0 u, at_ (cbc_key_chunk x) c0 /\ has c0 u /\ fkey u = k) /\
      (forall j c u, j < cbc_key_chunk x -> at_ j c -> has c u -> lt (fkey u) k) /\
      match ov with
      | Some w => (exists u, has c u /\ fkv u = (k, w)) /\ forall j c u, j < cbc_chunk x -> at_ j c -> has c u -> lt (fkv u) (k, w)
      | None => key_ends (cbc_chunk x) k
      end
  end.

Lemma at_lt i c : at_ i c -> i < length cs.
Proof. intros E. apply nth_error_Some; congruence. Qed.

Lemma cinv_valid x s : cinv x s -> cbc_key_valid inner cs x = Some (match s with Some _ => true | None => false end) /\
  match s with
  | Some (k, ov) => cbc_key inner cs x = Some k /\ cbc_val_valid inner cs x = Some (match ov with Some _ => true | None => false end) /\
      match ov with Some w => cbc_val inner cs x = Some w | None => True end
  | None => True
  end.
Proof.
  intros H. unfold cbc_key_valid, cbc_val_valid, cbc_key, cbc_val, get. destruct s as [[k ov]|]; cbn [cinv] in H.
  - destruct H as (c & y & E & Ey & Hl & _). pose proof (at_lt _ _ E) as Hlt. apply Nat.ltb_lt in Hlt. rewrite Hlt, Ey, E.
    pose proof (lr_observe _ c y _ E Hl) as O. apply observe_valid in O as (O1 & O2). cbn [fobs option_map fst snd] in *.
    destruct O2 as (O2 & O3 & O4). split; auto. split; auto. split; [destruct ov; auto|]. destruct ov; cbn [option_map] in *; tauto.
  - split; auto. destruct H as [H|(c & y & E & Ey & Hl)].
    + replace (cbc_chunk x <? length cs) with false by (symmetry; apply Nat.ltb_ge; auto). reflexivity.
    + pose proof (at_lt _ _ E) as Hlt. apply Nat.ltb_lt in Hlt. rewrite Hlt, Ey, E.
      pose proof (lr_observe _ c y _ E Hl) as O. apply observe_valid in O as (O1 & _). exact O1.
Qed.

(** Landing at the first update that satisfies a predicate on keys. *)
Lemma land_key (P : K -> bool) i c y u kc : at_ i c -> kc = i ->
  (forall j c' u', j < i -> at_ j c' -> has c' u' -> P (fkey u') = false) ->
  find (fun u => P (fkey u)) (rows c) = Some u -> lr c y (Some (fkey u, Some (fval u))) ->
  cinv {| cbc_key_chunk := kc; cbc_chunk := i; cbc_inner := Some y |} (at_first (find (fun u => P (fkey u)) us)).
Proof.
  intros E -> HP Hf Hl. rewrite (find_here (fun u => P (fkey u)) i c u E HP Hf). cbn [at_first option_map cinv cbc_chunk cbc_key_chunk cbc_inner].
  apply find_some in Hf as [Hin Hu]. assert (HLT : forall j c' u', j < i -> at_ j c' -> has c' u' -> lt (fkey u') (fkey u)).
  { intros j c' u' Hj Ej Hu'. assert (H : le (fkey u') (fkey u)) by (apply key_le_of; eapply (chunk_order j i); eauto).
    apply le_lteq in H as [H|H]; auto. specialize (HP _ _ _ Hj Ej Hu'). rewrite H in HP. congruence. }
  exists c, y. split; auto. split; auto. split; auto. split; [eauto|]. split; [eauto|]. split; [auto|]. split; [exists u; split; auto; apply fkv_pair|].
  intros j c' u' Hj Ej Hu'. rewrite fkv_pair. apply lt_pair. left. eauto.
Qed.

Lemma rises_cons u (l : list U) : rises (u :: l) -> rises l.
Proof. intros H i j a b Hij Ea Eb. apply (H (S i) (S j)); auto; lia. Qed.
Lemma find_least (l : list U) : rises l -> forall (Q : U -> bool) f u, find Q l = Some f -> In u l -> Q u = true -> le (fkv f) (fkv u).
Proof.
  induction l as [|h l IH]; intros HR Q f u Hf Hu HQ; [destruct Hu|]. cbn [find] in Hf. destruct (Q h) eqn:Eh.
  - inversion Hf; subst. apply In_nth_error in Hu as (j & Ej). apply (HR 0 j); auto; lia.
  - destruct Hu as [->|Hu]; [congruence|]. eapply IH; eauto. eapply rises_cons; eauto.
Qed.
(** The first hit of [P] is the first hit of [Q], if it satisfies [Q], and nothing else does before. *)
Lemma find_agree (P Q : U -> bool) (l : list U) h : find P l = Some h -> Q h = true -> (forall v, In v l -> P v = false -> Q v = false) -> find P l = find Q l.
Proof.
  induction l as [|a l IH]; intros Hf Hq HI; cbn [find] in *; [discriminate|]. destruct (P a) eqn:Ea.
  - inversion Hf; subst. rewrite Hq. reflexivity.
  - rewrite (HI a) by (simpl; auto). apply IH; auto. intros; apply HI; simpl; auto.
Qed.

(** Seeking, within a chunk, the key the cursor is at. *)
Lemma seek_same i c k ov : at_ i c -> (exists u, has c u /\ fkey u = k) ->
  exists w, fmove (rows c) (Some (k, ov)) (SeekKey k) = Some (k, Some w) /\ (exists u, has c u /\ fkv u = (k, w)) /\ forall u, has c u -> fkey u = k -> le w (fval u).
Proof.
  intros E (u & Hu & Ek). cbn [fmove]. destruct (chunk_ok _ _ E) as [_ HC]. pose proof (consolidated_rises _ HC) as HR.
  assert (Hkk : leb k k = true) by apply leb_le, le_refl.
  destruct (find (fun u => leb k (fkey u) && leb k (fkey u)) (rows c)) as [f|] eqn:Ef.
  - pose proof (find_some _ _ Ef) as [Hf Hp]. apply andb_prop in Hp as [Hp _]. apply leb_le in Hp.
    assert (HL : forall v, has c v -> fkey v = k -> le (fkv f) (fkv v)).
    { intros v Hv Ev. eapply (find_least (rows c) HR); eauto. cbv beta. rewrite Ev, Hkk. reflexivity. }
    assert (Efk : fkey f = k) by (apply le_antisym; auto; rewrite <- Ek; apply key_le_of; auto).
    exists (fval f). cbn [at_first option_map]. rewrite Efk. split; auto. split; [exists f; split; auto; rewrite fkv_pair, Efk; auto|].
    intros v Hv Ev. specialize (HL v Hv Ev). rewrite !fkv_pair, Efk, Ev in HL. apply le_pair in HL as [HL|[_ HL]]; auto. exfalso; exact (lt_irrefl _ HL).
  - exfalso. apply (find_none _ _ Ef) in Hu. cbv beta in Hu. rewrite Ek, Hkk in Hu. discriminate.
Qed.

Definition cmove (s : place) (op : nav K V) : place :=
  match op with SeekKey k => at_first (find (fun u => leb k (fkey u)) us) | _ => fmove us s op end.

(** ** Keys *)
Lemma step_key_ok x s : cinv x s -> exists x', cbc_step_key inner fresh bounds cs x = Some x' /\ cinv x' (fmove us s StepKey).
Proof.
  intros H. pose proof (cinv_valid x s H) as [Hv Hv']. unfold cbc_step_key. rewrite Hv. destruct s as [[k ov]|]; [|exists x; auto].
  destruct Hv' as (Hk & _). rewrite Hk. cbn [cinv] in H. destruct H as (c & y & E & Ey & Hl & Hu & _).
  destruct (to_last_ok (fun i => key_spills bounds cs i k) (fun _ c y => (exists ov, lr c y (Some (k, ov))) /\ exists u, has c u /\ fkey u = k) (fun i => key_ends i k)) with (fuel := length cs) (x := x) (i := cbc_chunk x) (c := c) (y := y)
    as (i & c1 & y1 & E1 & Hi & Ei & ((ov1 & Hl1) & Hu1) & Hend); auto; [| | |lia|].
  { intros i c1 c2 y1 E1 E2 (_ & Hu1). destruct (key_spills_ok i c1 c2 k E1 E2 Hu1) as (b & Eb & HB). exists b. split; auto. destruct b; auto.
    destruct HB as (f & Hf & Hin & Ef & _). split; eauto. exists (Some (fval f)). pose proof (lr_fresh _ _ E2) as HF. rewrite Hf in HF. cbn [at_first option_map] in HF. rewrite Ef in HF. exact HF. }
  { intros i Hi j c' u Hj Ej. apply at_lt in Ej. lia. }
  { split; eauto. }
  rewrite E1. cbv beta iota. clear E1. generalize (cbc_key_chunk x). intros kc. clear dependent x. clear dependent c. clear y. rename Ei into E.
  match goal with |- context [cbc_within _ cs ?z] => set (x := z) end.
  destruct (within_ok x i c1 y1 _ (SeekKey k) E eq_refl eq_refl Hl1 Logic.I) as (y2 & E2 & Hl2).
  change (cbc_within (fun c j => c_seek_key inner c j k) cs x = Some {| cbc_key_chunk := cbc_key_chunk x; cbc_chunk := i; cbc_inner := Some y2 |}) in E2. rewrite E2. cbv beta iota.
  destruct (seek_same i c1 k ov1 E Hu1) as (w & Esk & _). rewrite Esk in Hl2. clear E2.
  match goal with |- context [cbc_within _ cs ?z] => set (x2 := z) end.
  destruct (within_ok x2 i c1 y2 _ StepKey E eq_refl eq_refl Hl2 Logic.I) as (y3 & E3 & Hl3).
  change (cbc_within (c_step_key inner) cs x2 = Some {| cbc_key_chunk := cbc_key_chunk x2; cbc_chunk := i; cbc_inner := Some y3 |}) in E3. rewrite E3. cbv beta iota.
  cbn [fmove] in Hl3 |- *. unfold cbc_inner_valid. cbn [cbc_inner cbc_chunk cbc_key_chunk]. unfold get at 1. rewrite E.
  pose proof (lr_observe _ c1 y3 _ E Hl3) as O. apply observe_valid in O as (O & _). rewrite O. clear O. cbv beta iota.
  assert (HP : forall j c' u', j < i -> at_ j c' -> has c' u' -> ltb k (fkey u') = false).
  { intros j c' u' Hj Ej Hu'. apply ltb_ge. destruct Hu1 as (u & Hu & <-). apply key_le_of. eapply (chunk_order j i); eauto. }
  destruct (find (fun u => ltb k (fkey u)) (rows c1)) as [g|] eqn:Eg; cbn [at_first option_map fobs negb andb].
  - eexists. split; [reflexivity|]. cbn [cbc_chunk cbc_inner]. apply (land_key (fun z => ltb k z) i c1 y3 g); auto.
  - destruct (Nat.ltb_spec (i + 1) (length cs)) as [L|L].
    + destruct (nth_error cs (i + 1)) as [c2|] eqn:E2; [|apply nth_error_None in E2; lia].
      destruct (chunk_ends _ _ E2) as (f & l & Hf & Hin & _ & _ & HE).
      eexists. split; [reflexivity|]. unfold cbc_goto; cbn [cbc_chunk cbc_inner]. unfold get. rewrite E2. cbn [option_map].
      assert (HL : forall u, has c2 u -> ltb k (fkey u) = true) by (intros u Hu; apply ltb_lt; eapply (Hend (i + 1)); eauto; lia).
      apply (land_key (fun z => ltb k z) (i + 1) c2 _ f); auto.
      * intros j c' u' Hj Ej Hu'. destruct (Nat.eq_dec j i) as [->|].
        -- rewrite E in Ej. inversion Ej; subst c'. apply (find_none _ _ Eg); auto.
        -- eapply (HP j); eauto; lia.
      * rewrite <- Hf. apply find_ext. auto.
      * pose proof (lr_fresh _ _ E2) as HF. rewrite Hf in HF. exact HF.
    + eexists. split; [reflexivity|]. cbn [cbc_chunk cbc_inner]. rewrite (find_nowhere (fun u => ltb k (fkey u))).
      * cbn [at_first option_map cinv cbc_chunk cbc_inner]. right. exists c1, y3. auto.
      * intros j c' u' Ej Hu'. pose proof (at_lt _ _ Ej). destruct (Nat.eq_dec j i) as [->|].
        -- rewrite E in Ej. inversion Ej; subst c'. apply (find_none _ _ Eg); auto.
        -- eapply (HP j); eauto; lia.
Qed.

Lemma rewind_keys_ok x s : exists x', cbc_rewind_keys fresh cs x = Some x' /\ cinv x' (fmove us s RewindKeys).
Proof.
  unfold cbc_rewind_keys. eexists. split; [reflexivity|].
  replace (fmove us s RewindKeys) with (at_first (find (fun u => (fun _ => true) (fkey u)) us)) by (destruct s as [[? []]|]; reflexivity).
  unfold get. destruct (nth_error cs 0) as [c|] eqn:E; cbn [option_map].
  - destruct (chunk_ends _ _ E) as (f & l & Hf & Hin & _). apply (land_key (fun _ => true) 0 c _ f); auto; [intros; lia|].
    pose proof (lr_fresh _ _ E) as HF. rewrite Hf in HF. exact HF.
  - apply nth_error_None in E. rewrite find_nowhere; [left; exact E|]. intros j c u Ej. apply at_lt in Ej. lia.
Qed.

Lemma seek_key_ok x key : exists x', cbc_seek_key inner fresh bounds cs x key = Some x' /\ cinv x' (at_first (find (fun u => leb key (fkey u)) us)).
Proof.
  unfold cbc_seek_key. destruct (locate_ok key (cbc_key_chunk x)) as (lo & El & Hlo & Hb & Ha). rewrite El. cbn zeta.
  unfold cbc_goto; cbn [cbc_chunk cbc_inner]. destruct (Nat.ltb_spec lo (length cs)) as [L|L].
  - destruct (Ha L) as (c & u & E & Hu & Hle). unfold get. rewrite E. cbn [option_map].
    match goal with |- context [cbc_within _ cs ?z] => set (z0 := z) end.
    destruct (within_ok z0 lo c _ _ (SeekKey key) E eq_refl eq_refl (lr_fresh _ _ E) Logic.I) as (y2 & E2 & Hl2).
    change (cbc_within (fun c j => c_seek_key inner c j key) cs z0 = Some {| cbc_key_chunk := cbc_key_chunk z0; cbc_chunk := lo; cbc_inner := Some y2 |}) in E2. rewrite E2.
    eexists. split; [reflexivity|]. destruct (chunk_ends _ _ E) as (f & l & Hf & Hin & _ & _ & HE). rewrite Hf in Hl2. cbn [at_first option_map fmove] in Hl2.
    destruct (find (fun u => leb key (fkey u)) (rows c)) as [g|] eqn:Eg.
    + apply (land_key (fun z => leb key z) lo c _ g); auto.
      * intros j c' u' Hj Ej Hu'. apply leb_gt. eapply (Hb j); eauto.
      * replace (find _ (rows c)) with (Some g) in Hl2; [exact Hl2|]. rewrite <- Eg. apply find_ext. intros v Hv. replace (leb (fkey f) (fkey v)) with true; auto. symmetry. apply leb_le, key_le_of, HE; auto.
    + apply (find_none _ _ Eg) in Hu. apply leb_gt in Hu. exfalso. exact (lt_irrefl _ (lt_le_trans _ _ _ Hu Hle)).
  - eexists. split; [reflexivity|]. rewrite find_nowhere; [left; exact L|]. intros j c u Ej Hu. apply leb_gt. eapply (Hb j); eauto. apply at_lt in Ej. lia.
Qed.

(** ** Values *)
Lemma rewind_vals_ok x k ov : cinv x (Some (k, ov)) -> exists x', cbc_rewind_vals inner fresh cs x = Some x' /\ cinv x' (fmove us (Some (k, ov)) RewindVals).
Proof.
  intros H. pose proof (cinv_valid x _ H) as [Hv (Hk & _)]. unfold cbc_rewind_vals. rewrite Hv, Hk. cbn [cinv] in H.
  destruct H as (_ & _ & _ & _ & _ & _ & (c & u & E & Hu & Eu) & Hlt & _). set (i := cbc_key_chunk x) in *.
  set (z := cbc_goto fresh cs x i). assert (Ez : cbc_inner z = Some (fresh c)) by (unfold z, cbc_goto, get; cbn [cbc_inner]; rewrite E; reflexivity).
  destruct (within_ok z i c _ _ (SeekKey k) E eq_refl Ez (lr_fresh _ _ E) Logic.I) as (y2 & E2 & Hl2).
  change (cbc_within (fun c j => c_seek_key inner c j k) cs z = Some {| cbc_key_chunk := cbc_key_chunk z; cbc_chunk := i; cbc_inner := Some y2 |}) in E2. rewrite E2.
  eexists. split; [reflexivity|]. destruct (chunk_ends _ _ E) as (f & l & Hf & Hin & _ & _ & HE). rewrite Hf in Hl2. cbn [at_first option_map fmove] in Hl2.
  destruct (find (fun u => eqb (fkey u) k) (rows c)) as [g|] eqn:Eg.
  2:{ apply (find_none _ _ Eg) in Hu. rewrite Eu, eqb_refl in Hu. discriminate. }
  pose proof (find_some _ _ Eg) as [Hg Egk]. apply (proj1 (eqb_eq _ _)) in Egk.
  assert (Hfm : fmove us (Some (k, ov)) RewindVals = Some (k, Some (fval g))).
  { cbn [fmove]. rewrite (find_here _ i c g E); [destruct ov; reflexivity| |exact Eg]. intros j c' u' Hj Ej Hu'. destruct (eqb_spec (fkey u') k) as [E'|]; auto. specialize (Hlt j c' u' Hj Ej Hu'). rewrite E' in Hlt. exfalso; exact (lt_irrefl _ Hlt). }
  rewrite Hfm. replace (find _ (rows c)) with (Some g) in Hl2.
  - cbn [cinv cbc_chunk cbc_inner cbc_key_chunk option_map] in *. exists c, y2. split; auto. split; auto. split; [rewrite <- Egk at 1; exact Hl2|]. split; [eauto|]. split; [exists c, g; auto|]. split; [exact Hlt|].
    split; [exists g; split; auto; rewrite fkv_pair, Egk; auto|]. intros j c' u' Hj Ej Hu'. rewrite fkv_pair. apply lt_pair. left. eauto.
  - symmetry. destruct (chunk_ok _ _ E) as [_ HC]. pose proof (consolidated_rises _ HC) as HR.
    destruct (find (fun v => leb (fkey f) (fkey v) && leb k (fkey v)) (rows c)) as [h|] eqn:Eh.
    + pose proof (find_some _ _ Eh) as [Hh Ehk]. apply andb_prop in Ehk as [_ Ehk]. apply leb_le in Ehk.
      assert (Hhg : fkey h = k).
      { apply le_antisym; auto. rewrite <- Egk. apply key_le_of. eapply (find_least (rows c) HR); eauto. cbv beta. rewrite Egk. rewrite (proj2 (leb_le k k)) by apply le_refl. rewrite Bool.andb_true_r. apply leb_le. rewrite <- Egk. apply key_le_of, HE; auto. }
      rewrite <- Eg. rewrite <- Eh. apply find_agree with h; auto.
      * rewrite Hhg. apply eqb_refl.
      * intros v Hin'. destruct (eqb_spec (fkey v) k) as [Ev|Ev]; auto. intros Hd. exfalso. rewrite Ev in Hd. rewrite (proj2 (leb_le k k)) in Hd by apply le_refl. rewrite Bool.andb_true_r in Hd. apply leb_gt in Hd. pose proof (proj1 (HE v Hin')) as Hx. apply key_le_of in Hx. rewrite Ev in Hx. exact (lt_irrefl _ (lt_le_trans _ _ _ Hd Hx)).
    + exfalso. apply (find_none _ _ Eh) in Hg. cbv beta in Hg. rewrite Egk in Hg. rewrite (proj2 (leb_le k k)) in Hg by apply le_refl. rewrite Bool.andb_true_r in Hg. apply leb_gt in Hg.
      pose proof (proj1 (HE u Hu)) as Hx. apply key_le_of in Hx. rewrite Eu in Hx. exact (lt_irrefl _ (lt_le_trans _ _ _ Hg Hx)).
Qed.

Lemma val_unique k w u : fkv u = (k, w) -> fkey u = k /\ fval u = w.
Proof. rewrite fkv_pair. intros H; inversion H; auto. Qed.

(** Landing at the first update of a key whose value satisfies a predicate. *)
Lemma land_val (Q : V -> bool) i c y k w kc : at_ i c ->
  (exists c0 u, at_ kc c0 /\ has c0 u /\ fkey u = k) -> (forall j c u, j < kc -> at_ j c -> has c u -> lt (fkey u) k) ->
  (forall j c' u, j < i -> at_ j c' -> has c' u -> (eqb (fkey u) k && Q (fval u)) = false) ->
  first_val (find (fun u => eqb (fkey u) k && Q (fval u)) (rows c)) = Some w -> lr c y (Some (k, Some w)) ->
  cinv {| cbc_key_chunk := kc; cbc_chunk := i; cbc_inner := Some y |} (Some (k, first_val (find (fun u => eqb (fkey u) k && Q (fval u)) us))).
Proof.
  intros E Hk0 Hk1 HP Hf Hl. destruct (find _ (rows c)) as [g|] eqn:Eg; [|discriminate]. cbn [first_val option_map] in Hf. inversion Hf; subst w. clear Hf.
  pose proof (find_some _ _ Eg) as [Hin Hg]. apply andb_prop in Hg as [Hg1 Hg2]. apply (proj1 (eqb_eq _ _)) in Hg1.
  rewrite (find_here _ i c g E HP Eg). cbn [first_val option_map cinv cbc_chunk cbc_key_chunk cbc_inner].
  exists c, y. split; auto. split; auto. split; auto. split; [eauto|]. split; [auto|]. split; [auto|].
  assert (Ekv : fkv g = (k, fval g)) by (rewrite fkv_pair, Hg1; auto). split; [eauto|].
  intros j c' u Hj Ej Hu. rewrite <- Ekv. assert (H : le (fkv u) (fkv g)) by (eapply (chunk_order j i); eauto). apply le_lteq in H as [H|H]; auto.
  exfalso. rewrite Ekv in H. apply val_unique in H as [H1 H2]. specialize (HP j c' u Hj Ej Hu). rewrite H1, H2, eqb_refl, Hg2 in HP. discriminate.
Qed.

Lemma chunk_key_end i c k Q : at_ i c -> key_ends i k -> (forall j c' u, j <= i -> at_ j c' -> has c' u -> (eqb (fkey u) k && Q (fval u)) = false) ->
  find (fun u => eqb (fkey u) k && Q (fval u)) us = None.
Proof.
  intros E He HP. apply find_nowhere. intros j c' u Ej Hu. destruct (Nat.le_gt_cases j i) as [L|L]; [eauto|].
  specialize (He j c' u L Ej Hu). destruct (eqb_spec (fkey u) k) as [Ek|]; auto. rewrite Ek in He. exfalso; exact (lt_irrefl _ He).
Qed.

Lemma step_val_ok x k ov : cinv x (Some (k, ov)) -> exists x', cbc_step_val inner fresh bounds cs x = Some x' /\ cinv x' (fmove us (Some (k, ov)) StepVal).
Proof.
  intros H. pose proof (cinv_valid x _ H) as [_ (Hk & Hvv & Hval)]. unfold cbc_step_val. rewrite Hvv. destruct ov as [w|]; [|exists x; auto].
  rewrite Hk, Hval. cbn [cinv] in H. destruct H as (c & y & E & Ey & Hl & _ & Hk0 & Hk1 & Hw & Hbefore).
  destruct (to_last_ok (fun i => val_spills bounds cs i k w) (fun _ c y => lr c y (Some (k, Some w)) /\ exists u, has c u /\ fkv u = (k, w)) (fun i => val_ends i k w)) with (fuel := length cs) (x := x) (i := cbc_chunk x) (c := c) (y := y)
    as (i & c1 & y1 & E1 & Hi & Ei & (Hl1 & Hu1) & Hend); auto; [| |lia|].
  { intros i c1 c2 y1 E1 E2 (_ & Hu1). destruct (val_spills_ok i c1 c2 k w E1 E2 Hu1) as (b & Eb & HB). exists b. split; auto. destruct b; auto.
    destruct HB as (f & Hf & Hin & Ef). split; eauto. pose proof (lr_fresh _ _ E2) as HF. rewrite Hf in HF. cbn [at_first option_map] in HF. apply val_unique in Ef as [Ef1 Ef2]. rewrite Ef1, Ef2 in HF. exact HF. }
  { intros i Hi j c' u Hj Ej. apply at_lt in Ej. lia. }
  rewrite E1. cbv beta iota. clear E1.
  match goal with |- context [cbc_within _ cs ?z] => set (x2 := z) end.
  destruct (within_ok x2 i c1 y1 _ StepVal Ei eq_refl eq_refl Hl1) as (y3 & E3 & Hl3); [discriminate|].
  change (cbc_within (c_step_val inner) cs x2 = Some {| cbc_key_chunk := cbc_key_chunk x2; cbc_chunk := i; cbc_inner := Some y3 |}) in E3. rewrite E3. cbv beta iota.
  change (cbc_key_chunk x2) with (cbc_key_chunk x). cbn [fmove] in Hl3 |- *. unfold cbc_inner_valid. cbn [cbc_inner cbc_chunk cbc_key_chunk]. unfold get at 1. rewrite Ei.
  pose proof (lr_observe _ c1 y3 _ Ei Hl3) as O. apply observe_valid in O as (_ & O). cbn [fobs option_map fst snd] in O. destruct O as (_ & O & _). rewrite O. clear O. cbv beta iota.
  assert (HP : forall j c' u', j < i -> at_ j c' -> has c' u' -> (eqb (fkey u') k && ltb w (fval u')) = false).
  { intros j c' u' Hj Ej Hu'. destruct (eqb_spec (fkey u') k) as [Ek|]; auto. apply ltb_ge. destruct Hu1 as (u & Hu & Eu). 
    assert (H : le (fkv u') (fkv u)) by (eapply (chunk_order j i); eauto). rewrite Eu, fkv_pair, Ek in H. apply le_pair in H as [H|[_ H]]; auto. exfalso; exact (lt_irrefl _ H). }
  assert (Hui : exists u, has c1 u /\ fkey u = k) by (destruct Hu1 as (u & Hu & Eu); exists u; apply val_unique in Eu as [? ?]; auto).
  destruct (first_val (find (fun u => eqb (fkey u) k && ltb w (fval u)) (rows c1))) as [w'|] eqn:Eg; cbn [option_map].
  - eexists. split; [reflexivity|]. apply (land_val (fun v => ltb w v) i c1 y3 k w'); auto.
  - assert (En : find (fun u => eqb (fkey u) k && ltb w (fval u)) (rows c1) = None) by (destruct (find _ (rows c1)); [discriminate|auto]).
    assert (HP' : forall j c' u', j <= i -> at_ j c' -> has c' u' -> (eqb (fkey u') k && ltb w (fval u')) = false).
    { intros j c' u' Hj Ej Hu'. destruct (Nat.eq_dec j i) as [->|]; [|eapply (HP j); eauto; lia]. rewrite Ei in Ej. inversion Ej; subst c'. apply (find_none _ _ En); auto. }
    assert (HN : key_ends i k -> exists x', Some {| cbc_key_chunk := cbc_key_chunk x; cbc_chunk := i; cbc_inner := Some y3 |} = Some x' /\ cinv x' (Some (k, first_val (find (fun u => eqb (fkey u) k && ltb w (fval u)) us)))).
    { intros He. eexists. split; [reflexivity|]. rewrite (chunk_key_end i c1 k (fun v => ltb w v) Ei He HP'). cbn [first_val option_map cinv cbc_chunk cbc_inner cbc_key_chunk].
      exists c1, y3. auto 10. }
    destruct (Nat.ltb_spec (i + 1) (length cs)) as [L|L].
    2:{ apply HN. intros j c' u Hj Ej. apply at_lt in Ej. lia. }
    destruct (nth_error cs (i + 1)) as [c2|] eqn:E2; [|apply nth_error_None in E2; lia].
    destruct (key_spills_ok i c1 c2 k Ei E2 Hui) as (b & Eb & HB). rewrite Eb. destruct b; [|apply HN; auto].
    destruct HB as (f & Hf & Hin & Ef & l & Hll & Elk & HE).
    match goal with |- context [cbc_goto fresh cs ?z _] => set (x4 := cbc_goto fresh cs z (i + 1)) end.
    assert (Ez : cbc_inner x4 = Some (fresh c2)) by (unfold x4, cbc_goto, get; cbn [cbc_inner]; rewrite E2; reflexivity).
    pose proof (lr_fresh _ _ E2) as HF. rewrite Hf in HF. cbn [at_first option_map] in HF. rewrite Ef in HF.
    destruct (within_ok x4 (i + 1) c2 _ _ (SeekKey k) E2 eq_refl Ez HF Logic.I) as (y5 & E5 & Hl5).
    change (cbc_within (fun c j => c_seek_key inner c j k) cs x4 = Some {| cbc_key_chunk := cbc_key_chunk x; cbc_chunk := i + 1; cbc_inner := Some y5 |}) in E5. rewrite E5.
    destruct (seek_same (i + 1) c2 k (Some (fval f)) E2) as (w2 & Esk & (u2 & Hu2 & Eu2) & Hmin); [eauto|]. rewrite Esk in Hl5.
    assert (Ew2 : w2 = fval f).
    { apply le_antisym; [apply Hmin; auto|]. destruct (chunk_ends _ _ E2) as (f' & l2 & Hf' & _ & _ & _ & HE2). rewrite Hf in Hf'. inversion Hf'; subst f'.
      pose proof (proj1 (HE2 u2 Hu2)) as HX. rewrite Eu2, fkv_pair, Ef in HX. apply le_pair in HX as [HX|[_ HX]]; auto. exfalso; exact (lt_irrefl _ HX). }
    subst w2. eexists. split; [reflexivity|]. apply (land_val (fun v => ltb w v) (i + 1) c2 y5 k (fval f)); auto.
    + intros j c' u' Hj Ej Hu'. apply (HP' j c' u'); auto; lia.
    + assert (Hwf : ltb w (fval f) = true).
      { apply ltb_lt. specialize (Hend (i + 1) c2 f). rewrite fkv_pair, Ef in Hend. assert (H : lt (k, w) (k, fval f)) by (apply Hend; auto; lia). apply lt_pair in H as [H|[_ H]]; auto. exfalso; exact (lt_irrefl _ H). }
      rewrite <- (find_agree (fun _ => true) _ (rows c2) f Hf); [rewrite Hf; reflexivity| |discriminate]. rewrite Ef, eqb_refl, Hwf. reflexivity.
Qed.

Lemma seek_val_loop_ok k w v kc : (exists c0 u, at_ kc c0 /\ has c0 u /\ fkey u = k) -> (forall j c u, j < kc -> at_ j c -> has c u -> lt (fkey u) k) ->
  forall fuel i c y w1, at_ i c -> lr c y (Some (k, Some w1)) -> (exists u, has c u /\ fkey u = k) ->
  (forall u, has c u -> fkey u = k -> leb w1 (fval u) = leb w (fval u)) ->
  (forall j c' u, j < i -> at_ j c' -> has c' u -> (eqb (fkey u) k && (leb w (fval u) && leb v (fval u))) = false) ->
  (exists j0 c0 u0, j0 <= i /\ at_ j0 c0 /\ has c0 u0 /\ fkv u0 = (k, w)) ->
  length cs <= fuel + i + 1 ->
  exists x', cbc_seek_val_loop inner fresh bounds fuel cs {| cbc_key_chunk := kc; cbc_chunk := i; cbc_inner := Some y |} k v = Some x' /\
    cinv x' (fmove us (Some (k, Some w)) (SeekVal v)).
Proof.
  intros Hk0 Hk1. induction fuel as [|fuel IH]; intros i c y w1 E Hl Hu Hw1 HP H0 Hf; cbn [cbc_seek_val_loop].
  all: match goal with |- context [cbc_within _ cs ?z] => set (x2 := z) end;
    destruct (within_ok x2 i c y _ (SeekVal v) E eq_refl eq_refl Hl) as (y3 & E3 & Hl3); [discriminate|];
    change (cbc_within (fun c j => c_seek_val inner c j v) cs x2 = Some {| cbc_key_chunk := kc; cbc_chunk := i; cbc_inner := Some y3 |}) in E3; rewrite E3; cbv beta iota;
    cbn [fmove] in Hl3 |- *; unfold cbc_inner_valid; cbn [cbc_inner cbc_chunk cbc_key_chunk]; unfold get at 1; rewrite E;
    pose proof (lr_observe _ c y3 _ E Hl3) as O; apply observe_valid in O as (_ & O); cbn [fobs option_map fst snd] in O; destruct O as (_ & O & _); rewrite O; clear O; cbv beta iota.
  all: assert (EQ : find (fun u => eqb (fkey u) k && (leb w1 (fval u) && leb v (fval u))) (rows c) = find (fun u => eqb (fkey u) k && (leb w (fval u) && leb v (fval u))) (rows c))
    by (apply find_ext; intros u' Hu'; destruct (eqb_spec (fkey u') k) as [Ek|]; auto; rewrite Hw1; auto); rewrite EQ in Hl3 |- *; clear EQ.
  all: destruct (first_val (find (fun u => eqb (fkey u) k && (leb w (fval u) && leb v (fval u))) (rows c))) as [w'|] eqn:Eg; cbn [option_map];
    [eexists; split; [reflexivity|]; apply (land_val (fun z => leb w z && leb v z) i c y3 k w'); auto|].
  all: assert (En : find (fun u => eqb (fkey u) k && (leb w (fval u) && leb v (fval u))) (rows c) = None) by (destruct (find _ (rows c)); [discriminate|auto]);
    assert (HP' : forall j c' u', j <= i -> at_ j c' -> has c' u' -> (eqb (fkey u') k && (leb w (fval u') && leb v (fval u'))) = false) by
      (intros j c' u' Hj Ej Hu'; destruct (Nat.eq_dec j i) as [->|]; [|eapply (HP j); eauto; lia]; rewrite E in Ej; inversion Ej; subst c'; apply (find_none _ _ En); auto);
    assert (HN : key_ends i k -> exists x', Some {| cbc_key_chunk := kc; cbc_chunk := i; cbc_inner := Some y3 |} = Some x' /\ cinv x' (Some (k, first_val (find (fun u => eqb (fkey u) k && (leb w (fval u) && leb v (fval u))) us)))) by
     (intros He; eexists; split; [reflexivity|]; rewrite (chunk_key_end i c k (fun z => leb w z && leb v z) E He HP'); cbn [first_val option_map cinv cbc_chunk cbc_inner cbc_key_chunk]; exists c, y3; auto 10).
  - replace (i + 1 <? length cs) with false by (symmetry; apply Nat.ltb_ge; lia). apply HN. intros j c' u Hj Ej. apply at_lt in Ej. lia.
  - destruct (Nat.ltb_spec (i + 1) (length cs)) as [L|L].
    2:{ apply HN. intros j c' u Hj Ej. apply at_lt in Ej. lia. }
    destruct (nth_error cs (i + 1)) as [c2|] eqn:E2; [|apply nth_error_None in E2; lia].
    destruct (key_spills_ok i c c2 k E E2 Hu) as (b & Eb & HB). rewrite Eb. destruct b; [|apply HN; auto].
    destruct HB as (f & Hf0 & Hin & Ef & l & Hll & Elk & HE).
    match goal with |- context [cbc_goto fresh cs ?z _] => set (x4 := cbc_goto fresh cs z (i + 1)) end.
    assert (Ez : cbc_inner x4 = Some (fresh c2)) by (unfold x4, cbc_goto, get; cbn [cbc_inner]; rewrite E2; reflexivity).
    pose proof (lr_fresh _ _ E2) as HF. rewrite Hf0 in HF. cbn [at_first option_map] in HF. rewrite Ef in HF.
    destruct (within_ok x4 (i + 1) c2 _ _ (SeekKey k) E2 eq_refl Ez HF Logic.I) as (y5 & E5 & Hl5).
    change (cbc_within (fun c j => c_seek_key inner c j k) cs x4 = Some {| cbc_key_chunk := kc; cbc_chunk := i + 1; cbc_inner := Some y5 |}) in E5. rewrite E5.
    destruct (seek_same (i + 1) c2 k (Some (fval f)) E2) as (w2 & Esk & (u2 & Hu2 & Eu2) & Hmin); [eauto|]. rewrite Esk in Hl5.
    apply (IH (i + 1) c2 y5 w2); auto; [eauto| | | |lia].
    + intros u' Hu' Ek. destruct H0 as (j0 & c0 & u0 & Hj0 & Ej0 & Hu0 & Eu0).
      assert (H : le (fkv u0) (fkv u')) by (eapply (chunk_order j0 (i + 1)); eauto; lia). rewrite Eu0, fkv_pair, Ek in H. apply le_pair in H as [H|[_ H]]; [exfalso; exact (lt_irrefl _ H)|].
      rewrite (proj2 (leb_le w _) H). apply leb_le. apply Hmin; auto.
    + intros j c' u' Hj Ej Hu'. apply (HP' j c' u'); auto; lia.
    + destruct H0 as (j0 & c0 & u0 & Hj0 & H0). exists j0, c0, u0. split; auto; lia.
Qed.

Lemma seek_val_ok x k ov v : cinv x (Some (k, ov)) -> exists x', cbc_seek_val inner fresh bounds cs x v = Some x' /\ cinv x' (fmove us (Some (k, ov)) (SeekVal v)).
Proof.
  intros H. pose proof (cinv_valid x _ H) as [Hv (Hk & _)]. unfold cbc_seek_val. rewrite Hv, Hk. cbv beta iota. assert (H' := H). cbn [cinv] in H.
  destruct H as (c & y & E & Ey & Hl & Hu & Hk0 & Hk1 & Hov). destruct ov as [w|].
  - destruct Hov as (Hw & Hb). assert (Ex : {| cbc_key_chunk := cbc_key_chunk x; cbc_chunk := cbc_chunk x; cbc_inner := Some y |} = x) by (destruct x; cbn in *; congruence).
    cut (exists x', cbc_seek_val_loop inner fresh bounds (length cs) cs {| cbc_key_chunk := cbc_key_chunk x; cbc_chunk := cbc_chunk x; cbc_inner := Some y |} k v = Some x' /\ cinv x' (fmove us (Some (k, Some w)) (SeekVal v))); [rewrite Ex; auto|].
    apply (seek_val_loop_ok k w v _ Hk0 Hk1 (length cs) (cbc_chunk x) c y w); auto; [| |lia].
    + intros j c' u Hj Ej Hu'. specialize (Hb j c' u Hj Ej Hu'). destruct (eqb_spec (fkey u) k) as [Ek|]; auto. rewrite fkv_pair, Ek in Hb. apply lt_pair in Hb as [Hb|[_ Hb]]; [exfalso; exact (lt_irrefl _ Hb)|].
      apply leb_gt in Hb. rewrite Hb. reflexivity.
    + destruct Hw as (u & Hu1 & Hu2). exists (cbc_chunk x), c, u. auto.
  - destruct (length cs) as [|n] eqn:En; [pose proof (at_lt _ _ E); lia|]. cbn [cbc_seek_val_loop].
    destruct (within_ok x (cbc_chunk x) c y _ (SeekVal v) E eq_refl Ey Hl) as (y3 & E3 & Hl3); [discriminate|].
    change (cbc_within (fun c j => c_seek_val inner c j v) cs x = Some {| cbc_key_chunk := cbc_key_chunk x; cbc_chunk := cbc_chunk x; cbc_inner := Some y3 |}) in E3; rewrite E3; cbv beta iota.
    cbn [fmove] in Hl3 |- *; unfold cbc_inner_valid; cbn [cbc_inner cbc_chunk cbc_key_chunk]; unfold get at 1; rewrite E.
    pose proof (lr_observe _ c y3 _ E Hl3) as O; apply observe_valid in O as (_ & O); cbn [fobs option_map fst snd] in O; destruct O as (_ & O & _); rewrite O; clear O; cbv beta iota.
    assert (HN : exists x', Some {| cbc_key_chunk := cbc_key_chunk x; cbc_chunk := cbc_chunk x; cbc_inner := Some y3 |} = Some x' /\ cinv x' (Some (k, None))).
    { eexists. split; [reflexivity|]. cbn [cinv cbc_chunk cbc_inner cbc_key_chunk]. exists c, y3. auto 10. }
    rewrite En. destruct (Nat.ltb_spec (cbc_chunk x + 1) (S n)) as [L|L]; [|exact HN].
    destruct (nth_error cs (cbc_chunk x + 1)) as [c2|] eqn:E2; [|apply nth_error_None in E2; lia].
    destruct (key_spills_ok (cbc_chunk x) c c2 k E E2 Hu) as (b & Eb & HB). rewrite Eb. destruct b; [|exact HN].
    destruct HB as (f & _ & Hf & Ef & _). exfalso. assert (HL : lt k (fkey f)) by (eapply (Hov (cbc_chunk x + 1)); eauto; lia). rewrite Ef in HL. exact (lt_irrefl _ HL).
Qed.

(** ** Reading *)
Lemma times_at_app (a b : list U) k v : times_at (a ++ b) k v = times_at a k v ++ times_at b k v.
Proof. unfold times_at. rewrite filter_app, map_app. reflexivity. Qed.
Lemma times_at_none (l : list U) k v : (forall u, In u l -> fkv u <> (k, v)) -> times_at l k v = [].
Proof.
  intros H. unfold times_at. replace (filter _ l) with (@nil U); auto. symmetry. induction l as [|u l IH]; cbn [filter]; auto.
  destruct (eqb_spec (fkey u) k) as [E1|]; [destruct (eqb_spec (fval u) v) as [E2|]|]; cbn [andb]; try (apply IH; intros; apply H; simpl; auto).
  exfalso. apply (H u); [simpl; auto|]. rewrite fkv_pair, E1, E2. reflexivity.
Qed.

Lemma follow_ok k v fuel : forall i c, at_ i c -> (exists u, has c u /\ fkv u = (k, v)) -> length cs <= fuel + i + 1 ->
  cbc_follow inner fresh bounds fuel cs i k v = Some (times_at (flat_map rows (skipn (S i) cs)) k v).
Proof.
  induction fuel as [|fuel IH]; intros i c E Hu Hf; cbn [cbc_follow].
  - replace (i + 1 <? length cs) with false by (symmetry; apply Nat.ltb_ge; lia). rewrite skipn_all2 by lia. reflexivity.
  - destruct (Nat.ltb_spec (i + 1) (length cs)) as [L|L].
    2:{ rewrite skipn_all2 by lia. reflexivity. }
    destruct (nth_error cs (i + 1)) as [c2|] eqn:E2; [|apply nth_error_None in E2; lia].
    destruct (val_spills_ok i c c2 k v E E2 Hu) as (b & Eb & HB). rewrite Eb. destruct b.
    + destruct HB as (f & Hf0 & Hin & Ef). unfold get. rewrite E2. pose proof (lr_fresh _ _ E2) as HF. rewrite Hf0 in HF. cbn [at_first option_map] in HF.
      pose proof (val_unique _ _ _ Ef) as [Ef1 Ef2]. rewrite Ef1, Ef2 in HF.
      pose proof (lr_observe _ c2 _ _ E2 HF) as O. apply observe_valid in O as (_ & O). cbn [fobs option_map fst snd] in O. destruct O as (_ & _ & _ & O). rewrite O. cbv beta iota.
      rewrite (IH (i + 1) c2 E2) by (eauto; lia). f_equal. replace (i + 1) with (S i) in * by lia. rewrite (nth_error_skipn_cons cs (S i) c2 E2). cbn [flat_map]. rewrite times_at_app. reflexivity.
    + rewrite times_at_none; auto. intros u Hu' Ekv. apply in_flat_map in Hu' as (c' & Hc' & Hu'). apply In_nth_error in Hc' as (j & Ej). rewrite nth_skipn in Ej.
      assert (HL : lt (k, v) (fkv u)) by (eapply (HB (S i + j)); eauto; lia). rewrite Ekv in HL. exact (lt_irrefl _ HL).
Qed.

Lemma cinv_observe x s : cinv x s -> c_observe (cbc_ops inner fresh bounds) cs x = Some (fobs us s).
Proof.
  intros H. pose proof (cinv_valid x s H) as [Hv Hv']. unfold c_observe. cbn [c_get_key c_key_valid c_key c_get_val c_val_valid c_val c_map_times cbc_ops].
  unfold cbc_get_key, cbc_get_val. rewrite Hv. destruct s as [[k ov]|]; [|reflexivity]. destruct Hv' as (Hk & Hvv & Hval). rewrite Hk, Hvv. cbv beta iota. rewrite eqb_refl. cbn [andb].
  destruct ov as [w|]; [|reflexivity]. rewrite Hval. cbv beta iota. unfold cbc_map_times. rewrite Hvv, Hk, Hval. cbv beta iota. cbn [cinv] in H.
  destruct H as (c & y & E & Ey & Hl & _ & _ & _ & Hw & Hb). rewrite Ey. unfold get. rewrite E.
  pose proof (lr_observe _ c y _ E Hl) as O. apply observe_valid in O as (_ & O). cbn [fobs option_map fst snd] in O. destruct O as (_ & _ & _ & O). rewrite O. cbv beta iota.
  rewrite (follow_ok k w (length cs) (cbc_chunk x) c E Hw) by lia. rewrite eqb_refl. cbn [andb fobs option_map fst snd]. do 5 f_equal.
  pose proof E as E'. apply split_at in E' as (pre & post & Ecs & Hpre). unfold updates_of. rewrite Ecs at 2. rewrite flat_map_app. cbn [flat_map]. rewrite !times_at_app.
  rewrite (times_at_none (flat_map rows pre)).
  - cbn [app]. f_equal. f_equal. f_equal. rewrite Ecs. replace (S (cbc_chunk x)) with (length pre + 1) by lia. clear. induction pre as [|a pre IH]; cbn [length app skipn Nat.add]; auto.
  - intros u Hu Ekv. apply in_flat_map in Hu as (c' & Hc' & Hu). apply In_nth_error in Hc' as (j & Ej). assert (Hj : j < length pre) by (apply nth_error_Some; congruence).
    assert (HL : lt (fkv u) (k, w)) by (apply (Hb j c'); auto; [lia|rewrite Ecs, nth_error_app1; auto]). rewrite Ekv in HL. exact (lt_irrefl _ HL).
Qed.

Lemma cinv_nav x s op : cinv x s -> flegal s op -> exists x', c_nav (cbc_ops inner fresh bounds) cs x op = Some x' /\ cinv x' (cmove s op).
Proof.
  intros H HL. destruct op; cbn [c_nav c_step_key c_seek_key c_step_val c_seek_val c_rewind_keys c_rewind_vals cbc_ops cmove].
  - apply step_key_ok; auto.
  - apply seek_key_ok; auto.
  - destruct s as [[k ov]|]; [apply step_val_ok; auto|cbn in HL; congruence].
  - destruct s as [[k ov]|]; [apply seek_val_ok; auto|cbn in HL; congruence].
  - apply rewind_keys_ok; auto.
  - destruct s as [[k ov]|]; [apply rewind_vals_ok; auto|cbn in HL; congruence].
Qed.
Lemma cinv_new : cinv (cbc_new fresh cs) (fmove us None RewindKeys).
Proof. destruct (rewind_keys_ok (cbc_new fresh cs) None) as (x' & E & H). inversion E; subst. exact H. Qed.

(** ** Presentation *)
Local Notation tr := (trie_of us).
Let W : wf_trie tr.
Proof. apply trie_of_wf. apply Hcs. Qed.

Lemma from_start_ok p op q : in_range tr p -> legal_run tr p (from_start op) q -> in_range tr q /\ flegal (sem tr p) op /\ sem tr q = cmove (sem tr p) op.
Proof.
  assert (G : forall op, in_range tr p -> legal_run tr p [op] q -> in_range tr q /\ flegal (sem tr p) op /\ sem tr q = fmove us (sem tr p) op).
  { intros o Hr Hl. inversion Hl as [|? ? ? ? HL Hl']; subst. inversion Hl'; subst. apply legal_flegal in HL. split; [apply in_range_move; auto|]. split; auto. rewrite sem_move, flat_trie_of; auto. }
  destruct op; cbn [from_start cmove]; intros Hr Hl; try (apply G; auto; fail).
  inversion Hl as [|? ? ? ? _ Hl1]; subst. inversion Hl1 as [|? ? ? ? _ Hl2]; subst. inversion Hl2; subst.
  assert (Hr' : in_range tr (move tr p RewindKeys)) by (apply in_range_move; auto).
  split; [apply in_range_move; auto|]. split; [exact Logic.I|]. rewrite sem_move by (auto; exact Logic.I). rewrite sem_move by (auto; exact Logic.I). rewrite flat_trie_of.
  replace (fmove us (sem tr p) RewindKeys) with (at_first (find (fun _ => true) us)) by (destruct (sem tr p) as [[? []]|]; reflexivity).
  destruct (find (fun _ => true) us) as [f|] eqn:Ef; cbn [at_first option_map fmove].
  - f_equal. apply find_ext. intros u Hu. replace (leb (fkey f) (fkey u)) with true; auto. symmetry. apply leb_le, key_le_of. eapply (find_least us whole_rises); eauto.
  - destruct us as [|u l] eqn:Eu; [reflexivity|discriminate].
Qed.

Lemma cursor_absolute navs p : legal_run tr start (flat_map from_start navs) p ->
  exists x, c_run (cbc_ops inner fresh bounds) cs (cbc_new fresh cs) navs = Some x /\ c_observe (cbc_ops inner fresh bounds) cs x = Some (observation tr p).
Proof.
  assert (G : forall navs p q x, in_range tr p -> cinv x (sem tr p) -> legal_run tr p (flat_map from_start navs) q ->
    exists x', c_run (cbc_ops inner fresh bounds) cs x navs = Some x' /\ cinv x' (sem tr q)).
  { clear navs p. induction navs as [|op navs IH]; intros p q x Hr Hx Hl; cbn [flat_map c_run] in *.
    - inversion Hl; subst. eauto.
    - apply legal_run_app in Hl as (m & Hl1 & Hl2). destruct (from_start_ok p op m Hr Hl1) as (Hm & HL & Em).
      destruct (cinv_nav x _ op Hx HL) as (x1 & E1 & H1). rewrite E1. apply (IH m q x1); auto. rewrite Em. exact H1. }
  intros Hl. destruct (sem_start _ W) as [H1 H2]. destruct (G navs start p (cbc_new fresh cs) H1) as (x & E & Hx); auto.
  { rewrite H2, flat_trie_of. apply cinv_new. }
  exists x. split; auto. rewrite (cinv_observe x _ Hx), observation_fobs, flat_trie_of by auto. reflexivity.
Qed.

Lemma forward_ok p op : in_range tr p -> legal tr p op -> forward tr p op -> sem tr (move tr p op) = cmove (sem tr p) op.
Proof.
  intros Hr HL HF. apply legal_flegal in HL. rewrite sem_move by auto. rewrite flat_trie_of. destruct op; auto. cbn [cmove forward] in *.
  rewrite <- (flat_trie_of us). rewrite (find_keys tr (fun z => leb k z)) by auto. rewrite flat_trie_of.
  unfold sem, at_key. destruct (nth_error tr (kp p)) as [[k0 vs]|] eqn:E; cbn [option_map fst fmove].
  - rewrite <- (flat_trie_of us). rewrite (find_keys tr (fun z => leb k0 z && leb k z)) by auto. rewrite flat_trie_of.
    rewrite (find_ext (fun e => leb k0 (fst e) && leb k (fst e)) (fun e => leb k (fst e))); auto.
    intros e He. apply In_nth_error in He as (j & Ej). destruct (Nat.lt_ge_cases j (kp p)) as [L|L].
    + assert (H : lt (fst e) k). { apply HF. rewrite <- (firstn_skipn (kp p) tr) in Ej. rewrite nth_error_app1 in Ej; [eapply nth_error_In; eauto|]. rewrite firstn_length. destruct Hr. lia. }
      apply leb_gt in H. rewrite H. apply Bool.andb_false_r.
    + replace (leb k0 (fst e)) with true; auto. symmetry. apply leb_le. destruct (Nat.eq_dec j (kp p)) as [->|]; [rewrite E in Ej; inversion Ej; apply le_refl|].
      apply lt_le. apply (keys_order tr _ _ _ _ W E Ej). lia.
  - rewrite find_none_all; auto. intros e He. apply leb_gt. apply HF. rewrite firstn_all2; auto. apply nth_error_None; auto.
Qed.

Lemma cursor_forward : presents_if (forward tr) (cbc_ops inner fresh bounds) cs (cbc_new fresh cs) tr.
Proof.
  assert (G : forall navs p q x, in_range tr p -> cinv x (sem tr p) -> run_if (forward tr) tr p navs q ->
    exists x', c_run (cbc_ops inner fresh bounds) cs x navs = Some x' /\ cinv x' (sem tr q)).
  { induction navs as [|op navs IH]; intros p q x Hr Hx Hl; cbn [c_run] in *.
    - inversion Hl; subst. eauto.
    - inversion Hl as [|? ? ? ? HL HF Hl']; subst. destruct (cinv_nav x _ op Hx) as (x1 & E1 & H1); [apply legal_flegal; auto|]. rewrite E1.
      apply (IH (move tr p op) q x1); auto; [apply in_range_move; auto|]. rewrite forward_ok; auto. }
  intros navs p Hl. destruct (sem_start _ W) as [H1 H2]. destruct (G navs start p (cbc_new fresh cs) H1) as (x & E & Hx); auto.
  { rewrite H2, flat_trie_of. apply cinv_new. }
  exists x. split; auto. rewrite (cinv_observe x _ Hx), observation_fobs, flat_trie_of by auto. reflexivity.
Qed.
End Chunks.
