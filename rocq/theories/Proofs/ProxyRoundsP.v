(** The rounds of the proxy reduce: each key goes through its moments, and is right at those it has been through. *)
From Coq Require Import Sorting.Sorted.
From Verif Require Export Proofs.ProxyKeyP.
From Verif Require Import Base.Order.

(** ** Lists *)
Section Lists.
Lemma ends_app {X} (a b : list (list X)) : forall n, ends n (a ++ b) = ends n a ++ ends (n + length (concat a)) b.
Proof.
  induction a as [|x a IH]; intros n; cbn [app ends concat]; [rewrite Nat.add_0_r; auto|]. rewrite IH. cbn [app]. do 3 f_equal. rewrite app_length. lia.
Qed.
Lemma slice_mid {X} (a x b : list X) : slice (a ++ x ++ b) (length a) (length a + length x) = Some x.
Proof.
  unfold slice. rewrite (proj2 (Nat.leb_le _ _)) by lia. rewrite (proj2 (Nat.leb_le _ _)) by (rewrite !app_length; lia). cbn [andb].
  rewrite skipn_app, skipn_all, Nat.sub_diag. cbn [skipn app]. replace (length a + length x - length a) with (length x) by lia. rewrite firstn_app, firstn_all, Nat.sub_diag. cbn [firstn]. rewrite app_nil_r. auto.
Qed.
Lemma add_at_length {X} (xs : list X) : forall l i, length (add_at i xs l) = length l.
Proof. induction l as [|y l IH]; intros [|i]; cbn [add_at length]; auto. Qed.
Lemma add_at_perm {X} (xs : list X) : forall l i, i < length l -> Permutation (concat (add_at i xs l)) (concat l ++ xs).
Proof.
  induction l as [|y l IH]; intros [|i] Hi; cbn [length] in Hi; try lia; cbn [add_at concat].
  - rewrite <- !app_assoc. apply Permutation_app_head. apply Permutation_app_comm.
  - rewrite <- app_assoc. apply Permutation_app_head. apply IH. lia.
Qed.
Lemma add_at_nth {X} (xs : list X) : forall l i j, nth_error (add_at i xs l) j = match nth_error l j with Some y => Some (if i =? j then y ++ xs else y) | None => None end.
Proof.
  induction l as [|y l IH]; intros i j; [destruct i, j; reflexivity|]. destruct i as [|i], j as [|j]; cbn [add_at nth_error Nat.eqb]; auto. destruct (nth_error l j); auto.
Qed.
End Lists.

Section Position.
Context {T : Type} {TT : Time T}.
Lemma rposition_some (held : list T) t : beyond held t -> exists i h, rposition held t = Some i /\ nth_error held i = Some h /\ tle h t = true /\ Forall (fun h' => tle h' t = false) (skipn (S i) held).
Proof.
  induction held as [|h held IH]; intros (x & Hx & L); [destruct Hx|]. cbn [rposition]. destruct (rposition held t) as [i|] eqn:E.
  - assert (B : beyond held t \/ ~ beyond held t) by (destruct (ac_less_equal held t) eqn:A; [left; apply ac_less_equal_spec; auto|right; apply ac_less_equal_false; auto]).
    destruct B as [B|B].
    + destruct (IH B) as (i' & h' & E1 & E2 & E3 & E4). inversion E1; subst. exists (S i'), h'. auto.
    + exfalso. clear -E B. revert i E. induction held as [|y held IH]; [discriminate|]. cbn [rposition]. intros i.
      assert (B' : ~ beyond held t) by (intros (z & Hz & L); apply B; exists z; split; [right|]; auto). specialize (IH B').
      destruct (rposition held t) as [j|]; [destruct (IH j eq_refl)|]. destruct (tle y t) eqn:L; [|discriminate]. intros _. apply B. exists y. split; [left; auto|auto].
  - assert (N : Forall (fun h' => tle h' t = false) held).
    { clear -E. induction held as [|y held IH]; [constructor|]. cbn [rposition] in E. destruct (rposition held t); [discriminate|]. destruct (tle y t) eqn:L; [discriminate|]. constructor; auto. }
    assert (L' : tle h t = true). { destruct Hx as [->|Hx]; auto. rewrite Forall_forall in N. rewrite (N _ Hx) in L. discriminate. }
    rewrite L'. exists 0, h. auto.
Qed.
End Position.

Section Rounds.
Context {B1 M1 B2 M2 K V1 V2 T R1 R2 H I S : Type} {OK : Ord K} {OV1 : Ord V1} {OV2 : Ord V2} {OH : Ord H} {OI : Ord I} {TT : Time T} {D1 : Diff R1} {D2 : Diff R2}.
Notation meaning := (meaning (K:=K) (H:=H) (I:=I)).
Variable bops1 : BatchOps B1 M1 T. Variable contents1 : B1 -> list (K * V1 * T * R1). Variable laws1 : BatchLaws (D:=K*V1) bops1 contents1.
Variable bops2 : BatchOps B2 M2 T. Variable contents2 : B2 -> list (K * V2 * T * R2). Variable laws2 : BatchLaws (D:=K*V2) bops2 contents2.
Variable backend : ReduceBackend B1 B2 T R1 R2 H I S.
Variable hash : K -> H. Variable F : K -> list (V1 * R1) -> V2 -> R2.
Hypothesis F_nil : forall k v, F k [] v = dzero.
Variable idle : S -> Prop.
Variable session : ReduceInstance B1 B2 T -> list H -> list (Description T) -> nat -> list H -> meaning V1 -> meaning V2 -> list (list (K * V2 * T * R2)) -> S -> Prop.
Hypothesis HS : serves bops1 contents1 laws1 bops2 contents2 laws2 backend hash F idle session.
Notation state := (KeyState T R1 R2 H I).
Notation request := (H * list (I * R1) * list (I * R2))%type.
Notation times l := (map (fun u => snd (fst u)) l).
Variable keys : list H. Variable held : list T. Variable mn1 : meaning V1.

Record kghost := { kg_key : H; kg_in : list (I * T * R1); kg_out : list (I * T * R2); kg_done : list T; kg_todo : list T; kg_prod : list (I * T * R2) }.
Definition right_here (mn2 : meaning V2) (h : H) (inp : list (I * T * R1)) (out : list (I * T * R2)) (x : T) : Prop :=
  forall k, hash k = h -> forall i, consolidated i -> (forall a, weight i a = acc (tnamed mn1 h inp) (k, a) x) -> forall v, acc (tnamed mn2 h out) (k, v) x = F k i v.
Record kinv (mn2 : meaning V2) (g : kghost) (st : state) : Prop := {
  kk_key : ks_key st = kg_key g; kk_in : In (kg_key g) keys;
  kk_ok : key_ok (kg_in g) (kg_out g) (kg_prod g) (kg_todo g) st;
  kk_sorted : strictly_sorted (kg_done g ++ kg_todo g);
  kk_held : Forall (beyond held) (kg_done g ++ kg_todo g);
  kk_times : Forall (fun u => In (snd (fst u)) (kg_done g)) (kg_prod g);
  kk_n1 : all_shown mn1 (rehash (kg_key g) (kg_in g)); kk_n2 : all_shown mn2 (rehash (kg_key g) (kg_out g ++ kg_prod g));
  kk_right : forall x, In x (kg_done g) -> right_here mn2 (kg_key g) (kg_in g) (kg_out g ++ kg_prod g) x }.

Lemma all_named_acc {V R} {DR : Diff R} (mn : meaning V) h (l : list (I * T * R)) (a : list (I * R)) t : all_shown mn (rehash h l) -> consolidated a -> (forall i, weight a i = acc l i t) -> all_named mn h a.
Proof.
  intros HN HC HW. apply Forall_forall. intros x Hx. assert (N : acc l (fst x) t <> dzero).
  { rewrite <- HW. apply (consolidated_in_weight a (fst x) HC). apply in_map. auto. }
  destruct (In_dec (fun a b => match eqb_spec a b with ReflectT _ H => left H | ReflectF _ H => right H end) (fst x) (map (fun u => fst (fst u)) l)) as [Hi|Hi].
  - apply in_map_iff in Hi. destruct Hi as (u & Eu & Hu). unfold all_shown, rehash in HN. rewrite Forall_map, Forall_forall in HN. specialize (HN u Hu). cbn [fst snd] in HN. rewrite Eu in HN. exact HN.
  - destruct N. clear -Hi. induction l as [|u l IH]; auto. rewrite acc_cons', IH by (intros E; apply Hi; right; auto). destruct (eqb_spec (fst (fst u)) (fst x)) as [E|]; [destruct Hi; left; auto|]. apply dplus_0_l.
Qed.
Lemma consolidated_zero {V R} {OV : Ord V} {DR : Diff R} (i : list (V * R)) : consolidated i -> (forall a, weight i a = dzero) -> i = [].
Proof. intros C W. destruct i as [|x i]; auto. exfalso. apply (consolidated_in_weight _ (fst x) C); [left; auto|apply W]. Qed.

(** the next moment of a key, when there is nothing at it *)
Definition moved (g : kghost) (t : T) (todo : list T) (cs : list (I * R2)) : kghost :=
  {| kg_key := kg_key g; kg_in := kg_in g; kg_out := kg_out g; kg_done := kg_done g ++ [t]; kg_todo := todo; kg_prod := kg_prod g ++ map (fun c => (fst c, t, snd c)) cs |}.
Lemma acc_later {V R} {OV : Ord V} {DR : Diff R} (l : list (V * T * R)) x v : Forall (fun u => lt x (snd (fst u))) l -> acc l v x = dzero.
Proof.
  intros HF. apply acc_none. intros u Hu. rewrite Forall_forall in HF. destruct (tle (snd (fst u)) x) eqn:L; auto. apply tle_le in L. destruct (lt_irrefl _ (lt_le_trans _ _ _ (HF u Hu) L)).
Qed.
Lemma step_applied mn2 mn2' g st st' t todo cs ins outs : kinv mn2 g st -> kg_todo g = t :: todo -> extends mn2 mn2' -> ks_key st' = kg_key g ->
  key_ok (kg_in g) (kg_out g) (kg_prod g) todo st' -> (forall i, weight ins i = acc (kg_in g) i t) -> (forall i, weight outs i = acc (kg_out g ++ kg_prod g) i t) ->
  corrects hash F mn1 mn2' (kg_key g, ins, outs) cs ->
  kinv mn2' (moved g t todo cs) {| ks_key := ks_key st'; ks_moments := ks_moments st'; ks_meets := ks_meets st'; ks_in := ks_in st'; ks_out := ks_out st';
                                  ks_produced := ks_produced st' ++ map (fun c => (fst c, t, snd c)) cs |}.
Proof.
  intros [E1 E2 _ E4 E4h E5 E6 E7 E8] Et X Ek Ok Wi Wo [Nc Cc]. rewrite Et in *. destruct (shown_extends _ _ _ X E7) as [Sx Sn].
  assert (En : all_shown mn2' (rehash (kg_key g) (map (fun c : I * R2 => (fst c, t, snd c)) cs))).
  { unfold all_shown, rehash. rewrite map_map, Forall_map. cbn [fst snd]. exact Nc. }
  constructor; unfold moved; cbn [kg_key kg_in kg_out kg_done kg_todo kg_prod ks_key]; auto.
  - apply key_produces. auto.
  - rewrite <- app_assoc. auto.
  - rewrite <- app_assoc. auto.
  - apply Forall_app. split; [eapply Forall_impl; [|exact E5]; intros u Hu; apply in_app_iff; auto|]. apply Forall_map, Forall_forall. intros c _. cbn [fst snd]. apply in_app_iff. right; left; auto.
  - unfold rehash. rewrite app_assoc, map_app. apply Forall_app. split; auto.
  - intros x Hx k Hk i Ci Wi' v. rewrite app_assoc, tnamed_app, acc_app. unfold tnamed at 1. rewrite Sx. fold (tnamed (R:=R2) mn2 (kg_key g) (kg_out g ++ kg_prod g)).
    apply in_app_iff in Hx. destruct Hx as [Hx|[<-|[]]].
    + rewrite (acc_later (tnamed mn2' (kg_key g) (map _ cs))); [rewrite dplus_0_r; apply (E8 x Hx k Hk i Ci Wi')|].
      apply Forall_forall. intros u Hu. apply (in_map (fun u => snd (fst u))) in Hu. unfold tnamed in Hu. rewrite shown_times in Hu by exact En. unfold rehash in Hu. rewrite !map_map in Hu. cbn [fst snd] in Hu. apply in_map_iff in Hu. destruct Hu as (_ & <- & _).
      apply strictly_sorted_app in E4. destruct E4 as (_ & _ & HL). apply HL; [auto|left; auto].
    + rewrite <- (Cc k Hk i Ci); [|intros a; rewrite Wi'; symmetry; apply tnamed_acc_weight; auto].
      rewrite named_app, weight_app. f_equal.
      * unfold tnamed. rewrite <- Sx. symmetry. apply tnamed_acc_weight; auto.
      * symmetry. apply tnamed_acc_weight. intros i0. symmetry. apply acc_at. apply tle_refl.
Qed.
Lemma key_nothing (st : state) (t : T) : {| ks_key := ks_key st; ks_moments := ks_moments st; ks_meets := ks_meets st; ks_in := ks_in st; ks_out := ks_out st;
                                  ks_produced := ks_produced st ++ map (fun c : I * R2 => (fst c, t, snd c)) [] |} = st.
Proof. destruct st. cbn. rewrite app_nil_r. auto. Qed.

(** ** Gathering *)
Definition cx_of (rs : list request) : Crossing (RIn:=R1) (ROut:=R2) (H:=H) (I:=I) :=
  {| cx_keys := map (fun r => fst (fst r)) rs; cx_in_ends := ends 0 (map (fun r => snd (fst r)) rs); cx_in := concat (map (fun r => snd (fst r)) rs);
     cx_out_ends := ends 0 (map snd rs); cx_out := concat (map snd rs) |}.
Lemma cx_push rs h ins outs : {| cx_keys := cx_keys (cx_of rs) ++ [h]; cx_in_ends := cx_in_ends (cx_of rs) ++ [length (cx_in (cx_of rs) ++ ins)]; cx_in := cx_in (cx_of rs) ++ ins;
     cx_out_ends := cx_out_ends (cx_of rs) ++ [length (cx_out (cx_of rs) ++ outs)]; cx_out := cx_out (cx_of rs) ++ outs |} = cx_of (rs ++ [(h, ins, outs)]).
Proof.
  unfold cx_of. cbn [cx_keys cx_in_ends cx_in cx_out_ends cx_out]. rewrite !map_app. cbn [map fst snd]. rewrite !ends_app, !concat_app. cbn [ends concat plus]. rewrite !app_nil_r, !app_length. auto.
Qed.
(** a key that waits for its corrections *)
Definition waits (mn2 : meaning V2) (g : kghost) (st : state) (t : T) (r : request) : Prop :=
  exists st0 todo ins outs, kinv mn2 g st0 /\ kg_todo g = t :: todo /\ ks_key st = kg_key g /\ key_ok (kg_in g) (kg_out g) (kg_prod g) todo st /\
    r = (kg_key g, ins, outs) /\ (forall i, weight ins i = acc (kg_in g) i t) /\ (forall i, weight outs i = acc (kg_out g ++ kg_prod g) i t) /\
    consolidated ins /\ consolidated outs /\ (ins <> [] \/ outs <> []).
Inductive gathered (mn2 : meaning V2) : list kghost -> list (state * option T) -> list request -> Prop :=
| ga_nil : gathered mn2 [] [] []
| ga_none : forall g st gs l rs, kinv mn2 g st -> gathered mn2 gs l rs -> gathered mn2 (g :: gs) ((st, None) :: l) rs
| ga_some : forall g st t r gs l rs, waits mn2 g st t r -> gathered mn2 gs l rs -> gathered mn2 (g :: gs) ((st, Some t) :: l) (r :: rs).
(** what stays of a key's ghost *)
Definition follows (g g' : kghost) : Prop :=
  kg_key g' = kg_key g /\ kg_in g' = kg_in g /\ kg_out g' = kg_out g /\ kg_done g' ++ kg_todo g' = kg_done g ++ kg_todo g.
Definition total (gs : list kghost) : nat := list_sum (map (fun g => length (kg_todo g)) gs).
Lemma total_cons g gs : total (g :: gs) = length (kg_todo g) + total gs.
Proof. reflexivity. Qed.
Definition prods (gs : list kghost) : bridge H I T R2 := flat_map (fun g => rehash (kg_key g) (kg_prod g)) gs.

Lemma gather_ok mn2 : forall gs states rs0, Forall2 (kinv mn2) gs states -> exists gs' l adv rs,
  gather states (cx_of rs0) = Some (l, adv, cx_of (rs0 ++ rs)) /\ gathered mn2 gs' l rs /\ Forall2 follows gs gs' /\ prods gs' = prods gs /\
  total gs' + (if adv then 1 else 0) <= total gs + length rs /\ total gs' <= total gs /\ (adv = false -> rs = [] /\ Forall (fun g => kg_todo g = []) gs').
Proof.
  intros gs states rs0 HF. revert rs0. induction HF as [|g st gs states Hk HF IH]; intros rs0.
  - exists [], [], false, []. cbn [gather]. rewrite app_nil_r. split; [auto|]. split; [constructor|]. split; [constructor|]. split; [auto|]. split; [cbn; lia|]. split; [auto|]. intros _. split; [auto|constructor].
  - cbn [gather]. rewrite (ko_moments _ _ _ _ _ (kk_ok _ _ _ Hk)). destruct (kg_todo g) as [|t todo] eqn:Et; cbn [is_nil].
    + destruct (IH rs0) as (gs' & l & adv & rs & E & Q1 & Q2 & Q3 & Q4 & Q4' & Q5). rewrite E. exists (g :: gs'), ((st, None) :: l), adv, rs. split; [auto|]. split; [constructor; auto|].
      split; [constructor; auto; repeat split|]. split; [unfold prods in *; cbn [flat_map]; rewrite Q3; auto|]. rewrite !total_cons, Et. cbn [length].
      split; [exact Q4|]. split; [exact Q4'|]. intros Ea. destruct (Q5 Ea). auto.
    + pose proof (kk_ok _ _ _ Hk) as Ko. rewrite Et in Ko. destruct (key_step_ok _ _ _ _ _ _ Ko) as (st' & E1 & E2 & E3 & E4 & E5). rewrite E1.
      set (ins := accum_at (vh_buffer (ks_in st')) t) in *. set (outs := accum_at (vh_buffer (ks_out st') ++ ks_produced st') t) in *.
      assert (Ci : consolidated ins) by apply consolidate_consolidated. assert (Co : consolidated outs) by apply consolidate_consolidated.
      destruct (is_nil ins && is_nil outs) eqn:En.
      * apply andb_true_iff in En. destruct En as [N1 N2]. destruct ins as [|] eqn:Ei; [|discriminate]. destruct outs as [|] eqn:Eo; [|discriminate].
        destruct (IH rs0) as (gs' & l & adv & rs & E & Q1 & Q2 & Q3 & Q4 & Q4' & Q5). rewrite E. exists (moved g t todo [] :: gs'), ((st', None) :: l), true, rs. split; [auto|].
        assert (KI : kinv mn2 (moved g t todo []) st').
        { rewrite <- (key_nothing st' t). eapply (step_applied mn2 mn2 g st st' t todo [] [] []); eauto.
          - intros h i kv E0. exact E0.
          - rewrite E2. apply (kk_key _ _ _ Hk).
          - split; [constructor|]. intros k Hk' i Hi Wi v. cbn. rewrite (consolidated_zero i Hi); [symmetry; apply F_nil|]. exact Wi. }
        split; [constructor; auto|]. split; [constructor; auto; unfold follows, moved; cbn; rewrite Et, <- app_assoc; auto|].
        split; [unfold prods in *; cbn [flat_map]; rewrite Q3; unfold moved; cbn [kg_key kg_prod map]; rewrite app_nil_r; auto|].
        rewrite !total_cons. unfold moved. cbn [kg_todo]. rewrite Et. cbn [length]. split; [lia|]. split; [lia|]. discriminate.
      * rewrite cx_push. destruct (IH (rs0 ++ [(ks_key st', ins, outs)])) as (gs' & l & adv & rs & E & Q1 & Q2 & Q3 & Q4 & Q4' & Q5). rewrite E.
        exists (g :: gs'), ((st', Some t) :: l), true, ((ks_key st', ins, outs) :: rs). rewrite <- app_assoc. split; [auto|].
        split. { constructor; auto. exists st, todo, ins, outs. rewrite E2, (kk_key _ _ _ Hk). split; [auto|]. split; [auto|]. split; [auto|]. split; [auto|]. split; [auto|]. split; [auto|]. split; [auto|]. split; [auto|]. split; [auto|].
          destruct ins; [right|left; discriminate]. destruct outs; [discriminate En|discriminate]. }
        split; [constructor; auto; repeat split|]. split; [unfold prods in *; cbn [flat_map]; rewrite Q3; auto|]. rewrite !total_cons, Et. cbn [length]. split; [lia|]. split; [lia|]. discriminate.
Qed.

(** ** Applying *)
Definition dplaced (deltas : list (list (H * I * T * R2))) : Prop :=
  length deltas = length held /\ forall idx ds, nth_error deltas idx = Some ds -> Forall (fun u => rposition held (snd (fst u)) = Some idx) ds.
Lemma kinv_extends mn2 mn2' g st : extends mn2 mn2' -> kinv mn2 g st -> kinv mn2' g st.
Proof.
  intros X [E1 E2 E3 E4 E4h E5 E6 E7 E8]. destruct (shown_extends _ _ _ X E7) as [Sx Sn]. constructor; auto.
  intros x Hx k Hk i Ci Wi v. unfold tnamed. rewrite Sx. apply (E8 x Hx k Hk i Ci Wi v).
Qed.
Lemma apply_ok mn2 mn2' : extends mn2 mn2' -> forall gs l rs, gathered mn2 gs l rs -> forall pre cs deltas, Forall2 (corrects hash F mn1 mn2') rs cs -> dplaced deltas ->
  exists gs2 states2 deltas2 new, apply_corrections held l (concat (pre ++ cs)) (ends (length (concat pre)) cs) (length (concat pre)) deltas = Some (states2, deltas2) /\
    Forall2 (kinv mn2') gs2 states2 /\ Forall2 follows gs gs2 /\ total gs2 + length rs <= total gs /\ dplaced deltas2 /\
    Permutation (prods gs2) (prods gs ++ new) /\ Permutation (concat deltas2) (concat deltas ++ new).
Proof.
  intros X. induction 1 as [|g st gs l rs Hk HG IH|g st t r gs l rs Hw HG IH]; intros pre cs deltas HC HD.
  - inversion HC; subst. exists [], [], deltas, []. cbn [apply_corrections]. rewrite !app_nil_r. repeat split; auto; try constructor; try apply HD.
  - destruct (IH pre cs deltas HC HD) as (gs2 & states2 & deltas2 & new & E & Q1 & Q2 & Q3 & Q4 & Q5 & Q6). cbn [apply_corrections]. rewrite E.
    exists (g :: gs2), (st :: states2), deltas2, new. split; [auto|]. split; [constructor; auto; eapply kinv_extends; eauto|]. split; [constructor; auto; repeat split|].
    split; [rewrite !total_cons; lia|]. split; [auto|]. split; [|auto]. unfold prods in *. cbn [flat_map]. rewrite <- app_assoc. apply Permutation_app_head. auto.
  - inversion HC as [|r' c rs' cs' Hc HC' Er Ec]; subst r' rs' cs. destruct Hw as (st0 & todo & ins & outs & W1 & W2 & W3 & W4 & W5 & W6 & W7 & W8 & W9 & W10). subst r.
    pose proof (step_applied mn2 mn2' g st0 st t todo c ins outs W1 W2 X W3 W4 W6 W7 Hc) as KI.
    set (st2 := {| ks_key := ks_key st; ks_moments := ks_moments st; ks_meets := ks_meets st; ks_in := ks_in st; ks_out := ks_out st; ks_produced := ks_produced st ++ map (fun c => (fst c, t, snd c)) c |}) in *.
    assert (Bt : beyond held t). { pose proof (kk_held _ _ _ W1) as HB. rewrite W2 in HB. apply Forall_app in HB. destruct HB as [_ HB]. apply Forall_cons_iff in HB. apply HB. }
    destruct (rposition_some held t Bt) as (idx & h & Ei & En & _). pose proof (nth_error_Some held idx) as NS. assert (Li : idx < length deltas) by (rewrite (proj1 HD); apply NS; congruence).
    set (add := map (fun c => (ks_key st, fst c, t, snd c)) c).
    set (deltas1 := add_at idx add deltas).
    assert (HD1 : dplaced deltas1).
    { split; [unfold deltas1; rewrite add_at_length; apply HD|]. intros j ds Hj. unfold deltas1 in Hj. rewrite add_at_nth in Hj. destruct (nth_error deltas j) as [y|] eqn:Ej; [|discriminate]. injection Hj as <-.
      pose proof (proj2 HD j y Ej) as HY. destruct (Nat.eqb_spec idx j) as [->|]; auto. apply Forall_app. split; auto. unfold add. apply Forall_map, Forall_forall. intros c0 _. exact Ei. }
    destruct (IH (pre ++ [c]) cs' deltas1 HC' HD1) as (gs2 & states2 & deltas2 & new & E & Q1 & Q2 & Q3 & Q4 & Q5 & Q6).
    rewrite <- app_assoc in E. cbn [app] in E. rewrite (concat_app pre [c]), app_length in E. cbn [concat] in E. rewrite app_nil_r in E.
    exists (moved g t todo c :: gs2), (st2 :: states2), deltas2, (add ++ new). split.
    { cbn [apply_corrections ends]. assert (EQ : (if length (concat pre) =? length (concat pre) + length c then Some (st, deltas)
                               else idx <- rposition held t; cs <- slice (concat (pre ++ c :: cs')) (length (concat pre)) (length (concat pre) + length c);
                                 Some ({| ks_key := ks_key st; ks_moments := ks_moments st; ks_meets := ks_meets st; ks_in := ks_in st; ks_out := ks_out st;
                                        ks_produced := ks_produced st ++ map (fun c => (fst c, t, snd c)) cs |}, add_at idx (map (fun c => (ks_key st, fst c, t, snd c)) cs) deltas)) = Some (st2, deltas1)).
      { destruct (Nat.eqb_spec (length (concat pre)) (length (concat pre) + length c)) as [El|Nl].
        - assert (c = []) by (destruct c; [auto|cbn [length] in El; lia]). subst c. unfold st2, deltas1, add. rewrite key_nothing. cbn [map]. do 2 f_equal.
          clear. revert idx. induction deltas as [|y deltas IH]; intros [|idx]; cbn [add_at]; auto; [rewrite app_nil_r; auto|]. f_equal. apply IH.
        - rewrite Ei. rewrite concat_app. cbn [concat]. rewrite slice_mid. reflexivity. }
      rewrite EQ, E. reflexivity. }
    split; [constructor; auto|]. split; [constructor; auto; unfold follows, moved; cbn; rewrite W2, <- app_assoc; auto|].
    split; [rewrite !total_cons; unfold moved; cbn [kg_todo]; rewrite W2; cbn [length]; lia|]. split; [auto|].
    assert (Er : rehash (kg_key g) (map (fun c0 : I * R2 => (fst c0, t, snd c0)) c) = add) by (unfold add, rehash; rewrite map_map, W3; reflexivity).
    split.
    + unfold prods in *. cbn [flat_map moved kg_key kg_prod]. unfold rehash at 1. rewrite map_app. fold (rehash (kg_key g) (kg_prod g)). fold (rehash (kg_key g) (map (fun c0 : I * R2 => (fst c0, t, snd c0)) c)). rewrite Er, <- !app_assoc.
      apply Permutation_app_head. rewrite Q5, !app_assoc. apply Permutation_app_tail. apply Permutation_app_comm.
    + rewrite Q6. unfold deltas1. rewrite (add_at_perm add deltas idx Li), <- app_assoc. reflexivity.
Qed.

(** ** All rounds *)
Lemma follows_trans a b c : follows a b -> follows b c -> follows a c.
Proof. intros (A1 & A2 & A3 & A4) (C1 & C2 & C3 & C4). unfold follows. rewrite C1, C2, C3, C4. auto. Qed.
Lemma follows_all_trans : forall a b c, Forall2 follows a b -> Forall2 follows b c -> Forall2 follows a c.
Proof. intros a b c H1. revert c. induction H1; intros c H2; inversion H2; subst; constructor; auto. eapply follows_trans; eauto. Qed.
Lemma follows_keys gs gs' : Forall2 follows gs gs' -> map kg_key gs' = map kg_key gs.
Proof. induction 1 as [|g g' gs gs' (E & _) HF IH]; cbn [map]; congruence. Qed.
Lemma gathered_keys mn2 gs l rs : gathered mn2 gs l rs -> Forall (fun r => In (fst (fst r)) (map kg_key gs)) rs /\ (strictly_sorted (map kg_key gs) -> strictly_sorted (map (fun r => fst (fst r)) rs)).
Proof.
  induction 1 as [|g st gs l rs Hk HG [IH1 IH2]|g st t r gs l rs Hw HG [IH1 IH2]]; cbn [map].
  - split; [constructor|auto].
  - split; [eapply Forall_impl; [|exact IH1]; intros r Hr; right; auto|]. intros HS'. apply strictly_sorted_cons_inv in HS'. tauto.
  - destruct Hw as (st0 & todo & ins & outs & W1 & W2 & W3 & W4 & W5 & _). subst r. cbn [fst]. split; [constructor; [left; auto|eapply Forall_impl; [|exact IH1]; intros r Hr; right; auto]|].
    intros HS'. apply strictly_sorted_cons_inv in HS'. destruct HS' as [S1 S2]. apply strictly_sorted_cons; auto. apply Forall_map. rewrite Forall_forall in *. intros r Hr. apply S2. apply IH1. auto.
Qed.
Lemma gathered_requests mn2 gs l rs : gathered mn2 gs l rs ->
  Forall (fun r => let '(h, ins, outs) := r in In h keys /\ consolidated ins /\ consolidated outs /\ (ins <> [] \/ outs <> []) /\ all_named mn1 h ins /\ all_named mn2 h outs) rs.
Proof.
  induction 1 as [|g st gs l rs Hk HG IH|g st t r gs l rs Hw HG IH]; auto. constructor; auto.
  destruct Hw as (st0 & todo & ins & outs & W1 & W2 & W3 & W4 & W5 & W6 & W7 & W8 & W9 & W10). subst r. split; [apply (kk_in _ _ _ W1)|]. split; [auto|]. split; [auto|]. split; [auto|].
  split; [eapply all_named_acc; [apply (kk_n1 _ _ _ W1)|auto|exact W6]|eapply all_named_acc; [apply (kk_n2 _ _ _ W1)|auto|exact W7]].
Qed.
Lemma gathered_none mn2 gs l : gathered mn2 gs l [] -> Forall2 (kinv mn2) gs (map fst l).
Proof.
  assert (HG : forall rs, gathered mn2 gs l rs -> rs = [] -> Forall2 (kinv mn2) gs (map fst l)) by (induction 1; intros Er; cbn [map fst]; [constructor|constructor; auto|discriminate]).
  intros Hg. apply (HG [] Hg eq_refl).
Qed.

Lemma rounds_ok inst changed descs cursor emitted : forall fuel gs states deltas mn2 s,
  session inst changed descs cursor keys mn1 mn2 emitted s -> sound hash mn1 -> sound hash mn2 -> Forall2 (kinv mn2) gs states -> strictly_sorted (map kg_key gs) ->
  dplaced deltas -> Permutation (concat deltas) (prods gs) -> total gs < fuel ->
  exists deltas' s' mn2' gs' states', rounds backend fuel held states deltas s = Some (deltas', s') /\ session inst changed descs cursor keys mn1 mn2' emitted s' /\
    extends mn2 mn2' /\ sound hash mn2' /\ Forall2 follows gs gs' /\ Forall (fun g => kg_todo g = []) gs' /\ Forall2 (kinv mn2') gs' states' /\ dplaced deltas' /\ Permutation (concat deltas') (prods gs').
Proof.
  induction fuel as [|fuel IH]; intros gs states deltas mn2 s Hs S1 S2 HK HSo HD HP Hf; [lia|]. cbn [rounds].
  destruct (gather_ok mn2 gs states [] HK) as (gs' & l & adv & rs & E & Q1 & Q2 & Q3 & Q4 & Q4' & Q5). change {| cx_keys := []; cx_in_ends := []; cx_in := []; cx_out_ends := []; cx_out := [] |} with (cx_of []).
  rewrite E. cbn [app]. pose proof (follows_keys _ _ Q2) as Ek. destruct adv; cbn [negb].
  - destruct rs as [|r rs].
    + cbn [cx_of cx_keys map is_nil]. cbn [length] in Q4. destruct (IH gs' (map fst l) deltas mn2 s) as (deltas' & s' & mn2' & gs2 & states' & E' & Z1 & Z2 & Z3 & Z4 & Z5 & Z6 & Z7 & Z8); auto.
      * apply gathered_none. auto.
      * rewrite Ek. auto.
      * rewrite Q3. auto.
      * lia.
      * exists deltas', s', mn2', gs2, states'. split; [exact E'|]. do 3 (split; [auto|]). split; [eapply follows_all_trans; eauto|auto].
    + set (requests := r :: rs) in *. assert (En : is_nil (cx_keys (cx_of requests)) = false) by reflexivity. rewrite En. destruct (gathered_keys _ _ _ _ Q1) as [_ GK]. rewrite Ek in GK.
      destruct (sv_corrections _ _ _ _ _ _ _ _ _ _ _ HS inst changed descs cursor keys mn1 mn2 emitted s requests Hs S1 S2 (GK HSo) (gathered_requests _ _ _ _ Q1)) as (s' & cs & mn2' & Ec & X & S2' & HC & Hs').
      unfold cx_of. cbn [cx_keys cx_in_ends cx_in cx_out_ends cx_out]. rewrite Ec.
      destruct (apply_ok mn2 mn2' X gs' l requests Q1 [] cs deltas HC HD) as (gs2 & states2 & deltas2 & new & Ea & A1 & A2 & A3 & A4 & A5 & A6). cbn [concat app length] in Ea. rewrite Ea.
      destruct (IH gs2 states2 deltas2 mn2' s') as (deltas' & s'' & mn3 & gs3 & states' & E' & Z1 & Z2 & Z3 & Z4 & Z5 & Z6 & Z7 & Z8); auto.
      * rewrite (follows_keys _ _ A2), Ek. auto.
      * rewrite A6, A5, HP, Q3. reflexivity.
      * lia.
      * exists deltas', s'', mn3, gs3, states'. split; [exact E'|]. split; [auto|]. split; [intros h i kv H0; apply Z2, X, H0|]. split; [auto|].
        split; [|auto]. eapply follows_all_trans; [exact Q2|]. eapply follows_all_trans; eauto.
  - destruct (Q5 eq_refl) as [-> Hd]. exists deltas, s, mn2, gs', (map fst l). split; [auto|]. split; [auto|]. split; [intros h i kv H0; exact H0|]. split; [auto|]. split; [auto|]. split; [auto|].
    split; [apply gathered_none; auto|]. split; [auto|]. rewrite Q3. auto.
Qed.
End Rounds.
