(** A round of the proxy reduce: all windows, and the batches. *)
From Coq Require Import Sorting.Sorted.
From Verif Require Import Proofs.RetireP.
From Verif Require Export Proofs.ProxyWindowP.
From Verif Require Import Base.Order.

Section Windows.
Context {B1 M1 B2 M2 K V1 V2 T R1 R2 H I S : Type} {OK : Ord K} {OV1 : Ord V1} {OV2 : Ord V2} {OH : Ord H} {OI : Ord I} {TT : Time T} {D1 : Diff R1} {D2 : Diff R2} {A2 : Abelian R2}.
Notation meaning := (meaning (K:=K) (H:=H) (I:=I)).
Variable bops1 : BatchOps B1 M1 T. Variable contents1 : B1 -> list (K * V1 * T * R1). Variable laws1 : BatchLaws (D:=K*V1) bops1 contents1.
Variable bops2 : BatchOps B2 M2 T. Variable contents2 : B2 -> list (K * V2 * T * R2). Variable laws2 : BatchLaws (D:=K*V2) bops2 contents2.
Variable backend : ReduceBackend B1 B2 T R1 R2 H I S.
Variable hash : K -> H. Variable F : K -> list (V1 * R1) -> V2 -> R2.
Hypothesis F_nil : forall k v, F k [] v = dzero.
Variable idle : S -> Prop.
Variable session : ReduceInstance B1 B2 T -> list H -> list (Description T) -> nat -> list H -> meaning V1 -> meaning V2 -> list (list (K * V2 * T * R2)) -> S -> Prop.
Hypothesis HS : serves bops1 contents1 laws1 bops2 contents2 laws2 backend hash F idle session.
Notation times l := (map (fun u => snd (fst u)) l).
Variable inst : ReduceInstance B1 B2 T. Variable changed : list H. Variable upper held : list T. Variable pending : list (H * list T).
Variable descs : list (Description T). Variable th : list T. Variable tof : list (option nat).
Hypothesis tof_length : length tof = length held.
Hypothesis tiled : forall t idx, rposition held t = Some idx -> ~ beyond upper t -> exists tile d h, nth_error tof idx = Some (Some tile) /\ nth_error descs tile = Some d /\ nth_error th tile = Some h /\
      tle h t = true /\ beyond (d_lower d) t /\ ~ beyond (d_upper d) t.

(** an update belongs to a tile *)
Definition in_tile (tile : nat) (t : T) : Prop :=
  exists d h, nth_error descs tile = Some d /\ nth_error th tile = Some h /\ tle h t = true /\ beyond (d_lower d) t /\ ~ beyond (d_upper d) t.
Definition emits_ok (emitted : list (list (K * V2 * T * R2))) : Prop :=
  length emitted = length descs /\ forall tile e u, nth_error emitted tile = Some e -> In u e -> in_tile tile (snd (fst u)).

Lemma shown_in {V R} (mn : meaning V) (p : bridge H I T R) u : In u (shown mn p) -> exists u', In u' p /\ snd (fst u') = snd (fst u).
Proof. intros Hu. unfold shown in Hu. apply in_flat_map in Hu. destruct Hu as (u' & Hu' & Hu). exists u'. split; [auto|]. destruct (mn _ _) as [kv|]; [|destruct Hu]. destruct Hu as [<-|[]]. auto. Qed.

Lemma emit_all_ok cursor keys mn1 mn2 : forall deltas tof s emitted, session inst changed descs cursor keys mn1 mn2 emitted s -> emits_ok emitted -> length deltas = length tof ->
  all_shown mn2 (concat deltas) ->
  (forall j ds u, nth_error deltas j = Some ds -> In u ds -> In (hash_of u) keys /\ exists tile, nth_error tof j = Some (Some tile) /\ in_tile tile (snd (fst u))) ->
  exists s' emitted', emit_all backend deltas tof s = Some s' /\ session inst changed descs cursor keys mn1 mn2 emitted' s' /\ emits_ok emitted' /\
    same_weights (A:=K*V2*T) (concat emitted') (concat emitted ++ shown mn2 (concat deltas)).
Proof.
  clear tiled tof_length tof. induction deltas as [|ds deltas IH]; intros [|tile tof] s emitted Hs He El Sh HT; try discriminate.
  - exists s, emitted. split; [auto|]. split; [auto|]. split; [auto|]. cbn [concat shown flat_map]. rewrite app_nil_r. apply same_weights_refl.
  - cbn [emit_all]. cbn [concat] in Sh. apply Forall_app in Sh. destruct Sh as [Sd Sh].
    assert (Hst : exists s1 emitted1, s1 = (if is_nil ds then s else match tile with Some tile => rb_emit backend tile (consolidate (A:=H*I*T) ds) s | None => s end) /\
       session inst changed descs cursor keys mn1 mn2 emitted1 s1 /\ emits_ok emitted1 /\ same_weights (A:=K*V2*T) (concat emitted1) (concat emitted ++ shown mn2 ds)).
    { destruct ds as [|u0 ds].
      - exists s, emitted. cbn [is_nil shown flat_map]. rewrite app_nil_r. split; [auto|]. split; [auto|]. split; [auto|]. apply same_weights_refl.
      - destruct (HT 0 (u0 :: ds) u0 eq_refl (or_introl eq_refl)) as (_ & n & En & Tn). cbn [nth_error] in En. injection En as ->. cbn [is_nil]. set (D := u0 :: ds) in *.
        destruct Tn as (d & h & Ed & Eh & _). set (recs := consolidate (A:=H*I*T) D).
        assert (Hin : forall u, In u recs -> exists u', In u' D /\ fst u' = fst u).
        { intros u Hu. apply (in_map fst) in Hu. apply consolidate_incl in Hu. apply in_map_iff in Hu. destruct Hu as (u' & E & Hu). exists u'. auto. }
        assert (Ln : n < length emitted) by (rewrite (proj1 He); apply nth_error_Some; congruence).
        exists (rb_emit backend n recs s), (add_at n (shown mn2 recs) emitted). split; [auto|]. split; [|split].
        + eapply (sv_emit _ _ _ _ _ _ _ _ _ _ _ HS); eauto.
          * apply consolidate_consolidated.
          * apply Forall_forall. intros u Hu. destruct (Hin u Hu) as (u' & Hu' & E). unfold all_shown in Sd. rewrite Forall_forall in Sd. rewrite <- E. apply Sd; auto.
          * apply Forall_forall. intros u Hu. destruct (Hin u Hu) as (u' & Hu' & E). destruct (HT 0 D u' eq_refl Hu') as (Ik & n' & En & (d' & h' & Ed' & _ & _ & Tn1 & Tn2)). cbn [nth_error] in En. injection En as <-.
            rewrite <- E. rewrite Ed in Ed'. injection Ed' as <-. auto.
        + split; [rewrite add_at_length; apply He|]. intros tile e u Ee Hu. rewrite add_at_nth in Ee. destruct (nth_error emitted tile) as [e0|] eqn:E0; [|discriminate]. injection Ee as <-.
          destruct (Nat.eqb_spec n tile) as [->|]; [|eapply (proj2 He); eauto]. apply in_app_iff in Hu. destruct Hu as [Hu|Hu]; [eapply (proj2 He); eauto|].
          destruct (shown_in _ _ _ Hu) as (u1 & Hu1 & Et). destruct (Hin u1 Hu1) as (u' & Hu' & E). destruct (HT 0 D u' eq_refl Hu') as (_ & n' & En & Tn). cbn [nth_error] in En. injection En as <-. rewrite <- Et, <- E. exact Tn.
        + eapply same_weights_trans; [apply weight_perm, add_at_perm; auto|]. apply same_weights_app; [apply same_weights_refl|]. apply shown_same_weights. intros x. apply consolidate_weight. }
    destruct Hst as (s1 & emitted1 & <- & Hs1 & He1 & W1). destruct (IH tof s1 emitted1 Hs1 He1) as (s' & emitted' & E & Q1 & Q2 & Q3).
    { cbn [length] in El. lia. }
    { exact Sh. }
    { intros j ds' u Hj Hu. apply (HT (Datatypes.S j) ds' u Hj Hu). }
    exists s', emitted'. split; [auto|]. split; [auto|]. split; [auto|]. eapply same_weights_trans; [exact Q3|]. cbn [concat]. rewrite shown_app, app_assoc. apply same_weights_app; [exact W1|apply same_weights_refl].
Qed.

Lemma with_key_prods h : forall gs : list (kghost (T:=T) (R1:=R1) (R2:=R2) (H:=H) (I:=I)), strictly_sorted (map kg_key gs) ->
  (forall g, In g gs -> kg_key g = h -> with_key hash_of h (prods gs) = rehash h (kg_prod g)) /\ (~ In h (map kg_key gs) -> with_key hash_of h (prods gs) = []).
Proof.
  induction gs as [|g gs IH]; intros HSo; [split; [intros g []|auto]|]. cbn [map] in HSo. apply strictly_sorted_cons_inv in HSo. destruct HSo as [HSo HF]. destruct (IH HSo) as [IH1 IH2].
  assert (E : with_key hash_of h (prods (g :: gs)) = (if eqb (kg_key g) h then rehash h (kg_prod g) else []) ++ with_key hash_of h (prods gs)).
  { unfold prods, with_key. cbn [flat_map]. rewrite filter_app. f_equal. destruct (eqb_spec (kg_key g) h) as [->|N]; [apply rehash_key|]. apply with_key_none. intros u Hu. unfold rehash in Hu. apply in_map_iff in Hu. destruct Hu as (u' & <- & _). unfold hash_of. cbn [fst]. auto. }
  rewrite E. split.
  - intros g' [<-|Hg] Ek.
    + rewrite Ek, eqb_refl, IH2; [apply app_nil_r|]. intros Hi. rewrite Forall_forall in HF. apply HF in Hi. rewrite Ek in Hi. destruct (lt_irrefl _ Hi).
    + rewrite (IH1 g' Hg Ek). destruct (eqb_spec (kg_key g) h) as [Eg|]; auto. rewrite Forall_forall in HF. apply (in_map kg_key) in Hg. apply HF in Hg. rewrite Ek, Eg in Hg. destruct (lt_irrefl _ Hg).
  - intros N. rewrite IH2 by (intros Hi; apply N; right; auto). destruct (eqb_spec (kg_key g) h) as [Eg|]; auto. destruct N. left; auto.
Qed.
Lemma in_prods (gs : list (kghost (T:=T) (R1:=R1) (R2:=R2) (H:=H) (I:=I))) u : In u (prods gs) -> exists g, In g gs /\ hash_of u = kg_key g /\ In (snd (fst u)) (times (kg_prod g)).
Proof. intros Hu. unfold prods in Hu. apply in_flat_map in Hu. destruct Hu as (g & Hg & Hu). unfold rehash in Hu. apply in_map_iff in Hu. destruct Hu as (u' & <- & Hu). exists g. split; [auto|]. split; [auto|]. cbn [fst snd]. apply in_map_iff. exists u'. auto. Qed.

(** times at or after a new or pending time of a hash *)
Variable seeds0 : list (H * T).
Definition marks (h : H) : list T := map snd (with_key fst h seeds0) ++ pending_at pending h.
Definition touched (h : H) (t : T) : Prop := exists sd, In sd (marks h) /\ tle sd t = true.
Definition seen (t : T) : Prop := ac_less_equal upper t = false \/ linear_past t.
Notation total_in := (flat_map contents1 (ri_source inst ++ ri_input inst)).
Notation total_out := (flat_map contents2 (ri_output inst)).
Hypothesis pending_sorted : Forall (fun kp => strictly_sorted (snd kp)) pending.
Hypothesis marks_held : forall h sd, In sd (marks h) -> beyond held sd.

Record worked (keys : list H) (next : list (H * list T)) (new : list (K * V2 * T * R2)) : Prop := {
  wk_next : strictly_sorted (map fst next);
  wk_kept : Forall (fun kp => In (fst kp) keys /\ snd kp <> [] /\ strictly_sorted (snd kp) /\ Forall (fun y => beyond upper y /\ touched (fst kp) y) (snd kp)) next;
  wk_keys : forall k v t, ~ In (hash k) keys -> acc new (k, v) t = dzero;
  wk_touched : forall k v t, ~ touched (hash k) t -> acc new (k, v) t = dzero;
  wk_right : forall k t, In (hash k) keys -> beyond (ri_lower inst) t -> seen t -> touched (hash k) t -> (forall ps p, In (hash k, ps) next -> In p ps -> tle p t = false) ->
    right_for F k t total_in (total_out ++ new) }.

Lemma window_ok cursor keys mn1 mn2 emitted s p_in p_out seeds : session inst changed descs cursor keys mn1 mn2 emitted s -> sound hash mn1 -> sound hash mn2 -> strictly_sorted keys ->
  shows hash mn1 (ri_lower inst) keys p_in total_in -> shows hash mn2 (ri_lower inst) keys p_out total_out -> emits_ok emitted ->
  by_keys fst seeds -> (forall h, In h keys -> with_key fst h seeds = with_key fst h seeds0) ->
  exists states np seeds' deltas s1 s2 emitted' mn2' new,
    stand_up upper pending keys p_in p_out seeds = Some (states, np, seeds') /\
    rounds backend (Datatypes.S (list_sum (map (fun st => length (ks_moments st)) states))) held states (map (fun _ => []) held) s = Some (deltas, s1) /\
    emit_all backend deltas tof s1 = Some s2 /\ session inst changed descs cursor keys mn1 mn2' emitted' s2 /\ emits_ok emitted' /\
    same_weights (A:=K*V2*T) (concat emitted') (concat emitted ++ new) /\ by_keys fst seeds' /\ (forall h, Forall (fun k => lt k h) keys -> with_key fst h seeds' = with_key fst h seeds) /\
    worked keys np new.
Proof.
  intros Hs S1 S2 HK (C1 & Sh1 & W1) (C2 & Sh2 & W2) He Hsd Hse.
  destruct (stand_up_ok (A2:=A2) upper pending pending_sorted keys p_in p_out seeds HK (consolidated_by_keys _ C1) (consolidated_by_keys _ C2) Hsd) as (states & np & seeds' & ms & E & Q1 & Q2 & Q3 & Q4 & Q5 & Q6).
  set (gs := flat_map (ghosts p_in p_out) ms) in *.
  assert (MK : forall m, In m ms -> In (fst m) keys) by (intros m Hm; rewrite <- Q3; apply in_map; auto).
  assert (MF : forall m, In m ms -> strictly_sorted (fst (snd m)) /\ Forall (fun x => ac_less_equal upper x = false /\ touched (fst m) x) (fst (snd m)) /\ strictly_sorted (snd (snd m)) /\ Forall (fun y => ac_less_equal upper y = true /\ touched (fst m) y) (snd (snd m))).
  { intros m Hm. rewrite Forall_forall in Q4. specialize (Q4 m Hm). destruct (disc_runs (A2:=A2) upper pending pending_sorted p_in p_out seeds (fst m)) as (mo & pe & Ed & G). rewrite Q4 in Ed. injection Ed as Ed. rewrite Ed. cbn [fst snd]. rewrite (Hse (fst m) (MK m Hm)) in G. exact G. }
  assert (GI : forall g, In g gs -> exists m, In m ms /\ fst (snd m) <> [] /\ g = {| kg_key := fst m; kg_in := unhash (with_key hash_of (fst m) p_in); kg_out := unhash (with_key hash_of (fst m) p_out); kg_done := []; kg_todo := fst (snd m); kg_prod := [] |}).
  { intros g Hg. unfold gs in Hg. apply in_flat_map in Hg. destruct Hg as (m & Hm & Hg). exists m. unfold ghosts in Hg. destruct (fst (snd m)) as [|x l] eqn:Em; [destruct Hg|]. cbn [is_nil] in Hg. destruct Hg as [<-|[]]. split; [auto|]. split; [discriminate|auto]. }
  assert (GS : strictly_sorted (map kg_key gs)).
  { unfold gs. rewrite <- Q3 in HK. clear -HK. induction ms as [|m ms IH]; [constructor|]. cbn [map] in HK. apply strictly_sorted_cons_inv in HK. destruct HK as [HK HF]. cbn [flat_map]. rewrite map_app.
    assert (HF' : Forall (lt (fst m)) (map kg_key (flat_map (ghosts p_in p_out) ms))).
    { apply Forall_map, Forall_forall. intros g Hg. apply in_flat_map in Hg. destruct Hg as (m' & Hm' & Hg). rewrite Forall_map, Forall_forall in HF. unfold ghosts in Hg. destruct (is_nil _); [destruct Hg|]. destruct Hg as [<-|[]]. cbn [kg_key]. apply HF; auto. }
    unfold ghosts at 1. destruct (is_nil _); [apply IH; auto|]. cbn [map app kg_key]. apply strictly_sorted_cons; auto. }
  assert (KI : Forall2 (kinv hash F keys held mn1 mn2) gs states).
  { assert (G : Forall2 (fun g st => In g gs /\ (ks_key st = kg_key g /\ key_ok (kg_in g) (kg_out g) (kg_prod g) (kg_todo g) st)) gs states).
    { clear -Q5. induction Q5; constructor; [split; [left|]; auto|]. eapply Forall2_mono; [|exact IHQ5]. cbv beta. intros a b [Ha Hb]. split; [right; auto|auto]. }
    eapply Forall2_mono; [|exact G]. clear G. cbv beta. intros g st (Hg & Ek & Ko). destruct (GI g Hg) as (m & Hm & Nm & ->). cbn [kg_key kg_in kg_out kg_done kg_todo kg_prod] in *. destruct (MF m Hm) as (F1 & F2 & F3 & F4).
    constructor; cbn [kg_key kg_in kg_out kg_done kg_todo kg_prod app]; auto.
    - apply Forall_forall. intros x Hx. rewrite Forall_forall in F2. destruct (F2 x Hx) as (_ & sd & Hsd' & L). eapply beyond_mono; [exact L|]. eapply marks_held; eauto.
    - rewrite rehash_unhash. unfold all_shown, with_key in *. rewrite Forall_forall in *. intros u Hu. apply filter_In in Hu. apply Sh1. apply Hu.
    - rewrite app_nil_r, rehash_unhash. unfold all_shown, with_key in *. rewrite Forall_forall in *. intros u Hu. apply filter_In in Hu. apply Sh2. apply Hu.
    - intros x []. }
  assert (Et : total gs = list_sum (map (fun st => length (ks_moments st)) states)).
  { clear -Q5. unfold total. f_equal. induction Q5 as [|g st gs0 states0 (Ek & Ko) HF IH]; auto. cbn [map]. rewrite (ko_moments _ _ _ _ _ Ko), IH. auto. }
  assert (DP0 : dplaced held (map (fun _ : T => @nil (H * I * T * R2)) held)).
  { split; [apply map_length|]. intros idx ds Hd. apply nth_error_In in Hd. apply in_map_iff in Hd. destruct Hd as (_ & <- & _). constructor. }
  assert (DC0 : Permutation (concat (map (fun _ : T => @nil (H * I * T * R2)) held)) (prods gs)).
  { assert (E1 : concat (map (fun _ : T => @nil (H * I * T * R2)) held) = []) by (clear; induction held; auto). assert (E2 : prods gs = []).
    { clear -GI. unfold prods. induction gs as [|g gs0 IH]; auto. cbn [flat_map]. rewrite IH by (intros; apply GI; right; auto). destruct (GI g (or_introl eq_refl)) as (m & _ & _ & ->). auto. } rewrite E1, E2. auto. }
  destruct (rounds_ok bops1 contents1 laws1 bops2 contents2 laws2 backend hash F F_nil idle session HS keys held mn1 inst changed descs cursor emitted
     (Datatypes.S (list_sum (map (fun st => length (ks_moments st)) states))) gs states (map (fun _ => []) held) mn2 s Hs S1 S2 KI GS DP0 DC0) as (deltas & s1 & mn2' & gs' & states' & Er & Hs1 & X & S2' & FO & TD & KI' & DP & DC).
  { lia. }
  (* what is known of the corrections *)
  assert (GK : map kg_key gs' = map kg_key gs) by (apply follows_keys; auto).
  assert (GF : forall g', In g' gs' -> exists m, In m ms /\ fst m = kg_key g' /\ kg_done g' = fst (snd m) /\ kg_in g' = unhash (with_key hash_of (fst m) p_in) /\ kg_out g' = unhash (with_key hash_of (fst m) p_out) /\
      Forall (fun u => In (snd (fst u)) (fst (snd m))) (kg_prod g') /\ all_shown mn2' (rehash (kg_key g') (kg_out g' ++ kg_prod g')) /\ forall x, In x (fst (snd m)) -> right_here hash F mn1 mn2' (kg_key g') (kg_in g') (kg_out g' ++ kg_prod g') x).
  { intros g' Hg'. destruct (Forall2_in_r _ _ _ g' FO Hg') as (g & Hg & (F1 & F2 & F3 & F4)). destruct (GI g Hg) as (m & Hm & Nm & ->). cbn [kg_key kg_in kg_out kg_done kg_todo kg_prod app] in *.
    rewrite Forall_forall in TD. rewrite (TD g' Hg'), app_nil_r in F4. destruct (Forall2_in_l _ _ _ g' KI' Hg') as (st & _ & [k1 k2 k3 k4 k4h k5 k6 k7 k8]).
    exists m. split; [auto|]. split; [auto|]. split; [auto|]. split; [auto|]. split; [auto|]. rewrite F4 in *. split; [exact k5|]. split; [exact k7|exact k8]. }
  assert (DI : forall u, In u (concat deltas) -> exists m, In m ms /\ hash_of u = fst m /\ In (snd (fst u)) (fst (snd m)) /\ mn2' (fst (fst (fst u))) (snd (fst (fst u))) <> None).
  { intros u Hu. apply (Permutation_in _ DC) in Hu. assert (Hu' := Hu). apply in_prods in Hu'. destruct Hu' as (g' & Hg' & Ek & Ht). destruct (GF g' Hg') as (m & Hm & Em & _ & _ & _ & Tp & Sp & _). exists m. split; [auto|]. split; [congruence|].
    split. { apply in_map_iff in Ht. destruct Ht as (u' & <- & Hu'). rewrite Forall_forall in Tp. apply Tp; auto. }
    unfold prods in Hu. apply in_flat_map in Hu. destruct Hu as (g2 & Hg2 & Hu). destruct (GF g2 Hg2) as (_ & _ & _ & _ & _ & _ & _ & Sp2 & _). unfold all_shown in Sp2. rewrite Forall_forall in Sp2. apply Sp2. unfold rehash in *. rewrite map_app. apply in_app_iff. auto. }
  assert (ShD : all_shown mn2' (concat deltas)). { apply Forall_forall. intros u Hu. destruct (DI u Hu) as (_ & _ & _ & _ & N). auto. }
  destruct (emit_all_ok cursor keys mn1 mn2' deltas tof s1 emitted Hs1 He) as (s2 & emitted' & Ee & Hs2 & He' & We).
  { rewrite (proj1 DP). auto. }
  { exact ShD. }
  { intros j ds u Hj Hu. assert (Hc : In u (concat deltas)) by (apply in_concat; exists ds; split; [eapply nth_error_In; eauto|auto]). destruct (DI u Hc) as (m & Hm & Ek & Ht & _). split; [rewrite Ek; auto|].
    pose proof (proj2 DP j ds Hj) as HR. rewrite Forall_forall in HR. specialize (HR u Hu). destruct (MF m Hm) as (_ & F2 & _). rewrite Forall_forall in F2. destruct (F2 _ Ht) as (Nu & _). apply ac_less_equal_false in Nu.
    destruct (tiled _ _ HR Nu) as (tile & d & h & T1 & T2 & T3 & T4). exists tile. split; [auto|]. exists d, h. auto. }
  set (new := shown mn2' (concat deltas)) in *.
  assert (NA : forall k v t, acc new (k, v) t = acc (tnamed mn2' (hash k) (unhash (with_key hash_of (hash k) (prods gs')))) (k, v) t).
  { intros k v t. unfold new. transitivity (acc (shown mn2' (prods gs')) (k, v) t); [apply acc_perm; apply Permutation_flat_map; exact DC|apply (shown_of_hash hash mn2' (prods gs') k v t S2')]. }
  assert (GS' : strictly_sorted (map kg_key gs')) by (rewrite GK; auto).
  exists states, np, seeds', deltas, s1, s2, emitted', mn2', new. split; [exact E|]. split; [exact Er|]. split; [exact Ee|]. split; [exact Hs2|]. split; [exact He'|]. split; [exact We|]. split; [exact Q1|]. split; [exact Q2|].
  constructor.
  - rewrite Q6. rewrite <- Q3 in HK. clear -HK. induction ms as [|m ms IH]; [constructor|]. cbn [map] in HK. apply strictly_sorted_cons_inv in HK. destruct HK as [HK HF]. cbn [flat_map]. rewrite map_app.
    assert (HF' : Forall (lt (fst m)) (map fst (flat_map later ms))).
    { apply Forall_map, Forall_forall. intros g Hg. apply in_flat_map in Hg. destruct Hg as (m' & Hm' & Hg). rewrite Forall_map, Forall_forall in HF. unfold later in Hg. destruct (is_nil _); [destruct Hg|]. destruct Hg as [<-|[]]. cbn [fst]. apply HF; auto. }
    unfold later at 1. destruct (is_nil _); [apply IH; auto|]. cbn [map app fst]. apply strictly_sorted_cons; auto.
  - rewrite Q6. apply Forall_forall. intros kp Hkp. apply in_flat_map in Hkp. destruct Hkp as (m & Hm & Hkp). unfold later in Hkp. destruct (snd (snd m)) as [|y l] eqn:Em; [destruct Hkp|]. cbn [is_nil] in Hkp. destruct Hkp as [<-|[]]. cbn [fst snd].
    destruct (MF m Hm) as (_ & _ & F3 & F4). rewrite Em in *. split; [auto|]. split; [discriminate|]. split; [auto|]. eapply Forall_impl; [|exact F4]. cbv beta. intros y' [By Ty]. apply ac_less_equal_spec in By. auto.
  - intros k v t N. unfold new. apply (shown_only hash); auto. intros u Hu Eu. destruct (DI u Hu) as (m & Hm & Ek & _). apply N. rewrite <- Eu. unfold hash_of in Ek. rewrite Ek. auto.
  - intros k v t N. rewrite NA. destruct (with_key_prods (hash k) gs' GS') as [P1 P2].
    destruct (In_dec (fun a b => match eqb_spec a b with ReflectT _ H => left H | ReflectF _ H => right H end) (hash k) (map kg_key gs')) as [Hi|Hi]; [|rewrite (P2 Hi); auto].
    apply in_map_iff in Hi. destruct Hi as (g' & Ek & Hg'). rewrite (P1 g' Hg' Ek), unhash_rehash. apply acc_none. intros u Hu. unfold tnamed in Hu. apply shown_in in Hu. destruct Hu as (u' & Hu' & Et').
    destruct (GF g' Hg') as (m & Hm & Em & _ & _ & _ & Tp & _). unfold rehash in Hu'. apply in_map_iff in Hu'. destruct Hu' as (u2 & <- & Hu2). cbn [fst snd] in Et'. rewrite <- Et'. rewrite Forall_forall in Tp. specialize (Tp u2 Hu2).
    destruct (tle (snd (fst u2)) t) eqn:L; auto. destruct N. destruct (MF m Hm) as (_ & F2 & _). rewrite Forall_forall in F2. destruct (F2 _ Tp) as (_ & sd & Hsd' & L'). exists sd. rewrite <- Ek, <- Em. split; [auto|eapply tle_trans; eauto].
  - intros k t Hk Bt Vt Tt Hn. set (h := hash k) in *.
    assert (Hm : exists m, In m ms /\ fst m = h) by (rewrite <- Q3 in Hk; apply in_map_iff in Hk; destruct Hk as (m & Em & Hm); exists m; auto). destruct Hm as (m & Hm & Em).
    assert (Ed : disc upper pending p_in p_out seeds h = Some (snd m)) by (rewrite Forall_forall in Q4; rewrite <- (Q4 m Hm), Em; auto).
    set (inp := unhash (with_key hash_of h p_in)). set (outp := unhash (with_key hash_of h p_out)).
    destruct (shown_extends _ _ _ X Sh2) as [Xs Xn].
    assert (Sho : all_shown mn2' (rehash h outp)). { unfold outp. rewrite rehash_unhash. unfold all_shown, with_key in *. rewrite Forall_forall in *. intros u Hu. apply filter_In in Hu. apply Xn. apply Hu. }
    assert (HP : exists prod, (forall v t, acc new (k, v) t = acc (tnamed mn2' h prod) (k, v) t) /\ all_shown mn2' (rehash h (outp ++ prod)) /\ Forall (fun u => In (snd (fst u)) (fst (snd m))) prod /\
                   forall x, In x (fst (snd m)) -> right_here hash F mn1 mn2' h inp (outp ++ prod) x).
    { destruct (with_key_prods h gs' GS') as [P1 P2].
      destruct (In_dec (fun a b => match eqb_spec a b with ReflectT _ H => left H | ReflectF _ H => right H end) h (map kg_key gs')) as [Hi|Hi].
      - apply in_map_iff in Hi. destruct Hi as (g' & Ek & Hg'). destruct (GF g' Hg') as (m' & Hm' & Em' & _ & Ei & Eo & Tp & Sp & Rp). rewrite Ek in *.
        assert (Es : snd m' = snd m) by (rewrite Forall_forall in Q4; pose proof (Q4 m' Hm') as Q; rewrite Em', Ed in Q; congruence). rewrite Es, Em' in *. rewrite Ei, Eo in *.
        exists (kg_prod g'). split; [intros v t'; rewrite NA; fold h; rewrite (P1 g' Hg' Ek), unhash_rehash; auto|]. auto.
      - assert (Nm : fst (snd m) = []).
        { destruct (fst (snd m)) as [|x l] eqn:Ex; auto. destruct Hi. rewrite GK. unfold gs. apply in_map_iff. eexists. split; [|apply in_flat_map; exists m; split; [exact Hm|]; unfold ghosts; rewrite Ex; left; reflexivity]. exact Em. }
        exists []. split; [intros v t'; rewrite NA; fold h; rewrite (P2 Hi); auto|]. rewrite app_nil_r. split; [auto|]. split; [constructor|]. rewrite Nm. intros x []. }
    destruct HP as (prod & HP1 & HP2 & HP3 & HP4).
    assert (Ed' : discover_times upper inp (pending_at pending h) (map snd (with_key fst h seeds)) (times outp) = Some (fst (snd m), snd (snd m))).
    { unfold disc in Ed. rewrite <- (surjective_pairing (snd m)). rewrite <- Ed. f_equal. unfold outp, unhash. rewrite map_map. auto. }
    assert (RH : right_here hash F mn1 mn2' h inp (outp ++ prod) t).
    { apply (discovered_right hash F upper mn1 mn2' h inp outp prod _ _ _ _ Ed' (pending_at_sorted pending h pending_sorted) S2' HP2 HP3 HP4 t Vt).
      - rewrite (Hse h Hk). exact Tt.
      - intros y Hy. apply (Hn (snd (snd m)) y); auto. rewrite Q6. apply in_flat_map. exists m. split; [auto|]. unfold later. destruct (snd (snd m)) as [|y0 l]; [destruct Hy|]. left. rewrite Em. auto. }
    apply (proj1 (right_here_for _ _ _ _ _ _ _ _)) with (k := k) in RH; auto. eapply right_for_ext; [| |exact RH].
    + intros a. unfold inp. rewrite <- (W1 k a t Hk Bt). symmetry. apply (shown_of_hash hash mn1 p_in k a t S1).
    + intros v. rewrite tnamed_app, !acc_app. rewrite <- HP1. f_equal. rewrite <- (W2 k v t Hk Bt), <- Xs. symmetry. apply (shown_of_hash hash mn2' p_out k v t S2').
Qed.

Lemma worked_app a b na nb wa wb : strictly_sorted (a ++ b) -> worked a na wa -> worked b nb wb -> worked (a ++ b) (na ++ nb) (wa ++ wb).
Proof.
  intros HSo [a1 a2 a3 a4 a5] [b1 b2 b3 b4 b5]. apply strictly_sorted_app in HSo. destruct HSo as (Sa & Sb & Sab).
  assert (Dab : forall h, In h a -> ~ In h b) by (intros h Ha Hb; destruct (lt_irrefl _ (Sab h h Ha Hb))).
  constructor.
  - rewrite map_app. apply strictly_sorted_app. split; [auto|]. split; [auto|]. intros x y Hx Hy. apply in_map_iff in Hx. destruct Hx as (kx & <- & Hx). apply in_map_iff in Hy. destruct Hy as (ky & <- & Hy). rewrite Forall_forall in a2, b2. apply Sab; [apply (a2 _ Hx)|apply (b2 _ Hy)].
  - apply Forall_app. split; [eapply Forall_impl; [|exact a2]|eapply Forall_impl; [|exact b2]]; cbv beta; intros kp (Hi & Hr); split; auto; apply in_app_iff; auto.
  - intros k v t N. rewrite acc_app, a3, b3; [apply dplus_0_l| |]; intros Hi; apply N, in_app_iff; auto.
  - intros k v t N. rewrite acc_app, a4, b4; auto. apply dplus_0_l.
  - intros k t Hk Bt Vt Tt Hn. apply in_app_iff in Hk. destruct Hk as [Hk|Hk].
    + eapply right_for_ext; [intros; reflexivity| |apply (a5 k t Hk Bt Vt Tt)]; [|intros ps p Hp; apply Hn; apply in_app_iff; auto].
      intros v. rewrite app_assoc, (acc_app (total_out ++ wa)), (b3 k v t (Dab _ Hk)), dplus_0_r. auto.
    + eapply right_for_ext; [intros; reflexivity| |apply (b5 k t Hk Bt Vt Tt)]; [|intros ps p Hp; apply Hn; apply in_app_iff; auto].
      intros v. rewrite !acc_app, (a3 k v t), dplus_0_l; [auto|]. intros Ha. apply (Dab _ Ha Hk).
Qed.
Lemma firstn_skipn_split {X} (l : list X) a b : a <= b -> skipn a l = firstn (b - a) (skipn a l) ++ skipn b l.
Proof.
  intros L. rewrite <- (firstn_skipn (b - a) (skipn a l)) at 1. f_equal. revert b l L. induction a as [|a IH]; intros b l L; [rewrite Nat.sub_0_r; auto|]. destruct b as [|b]; [lia|]. destruct l as [|x l]; [rewrite !skipn_nil; auto|]. cbn [skipn Nat.sub]. apply IH. lia.
Qed.
Lemma windows_ok : strictly_sorted changed -> forall fuel cursor keys mn1 mn2 emitted s seeds, session inst changed descs cursor keys mn1 mn2 emitted s -> cursor <= length changed -> length changed - cursor < fuel ->
  emits_ok emitted -> by_keys fst seeds -> (forall h, In h (skipn cursor changed) -> with_key fst h seeds = with_key fst h seeds0) ->
  exists next s' emitted' keys' mn1' mn2' new, windows backend fuel inst upper held pending tof changed cursor seeds s = Some (next, s') /\ session inst changed descs (length changed) keys' mn1' mn2' emitted' s' /\
    emits_ok emitted' /\ same_weights (A:=K*V2*T) (concat emitted') (concat emitted ++ new) /\ worked (skipn cursor changed) next new.
Proof.
  intros SC. induction fuel as [|fuel IH]; intros cursor keys mn1 mn2 emitted s seeds Hs Hc Hf He Hsd Hse; [lia|]. cbn [windows]. destruct (Nat.eq_dec cursor (length changed)) as [->|Nc].
  - destruct (sv_done _ _ _ _ _ _ _ _ _ _ _ HS inst changed descs keys mn1 mn2 emitted s Hs) as (s' & c' & mn1' & mn2' & E & Hs'). rewrite E.
    exists [], s', emitted, keys, mn1', mn2', []. split; [auto|]. split; [auto|]. split; [auto|]. rewrite app_nil_r, skipn_all. split; [apply same_weights_refl|].
    constructor; try (constructor); auto; intros k t [].
  - destruct (sv_window _ _ _ _ _ _ _ _ _ _ _ HS inst changed descs cursor keys mn1 mn2 emitted s Hs) as (s1 & c' & w & mn1' & mn2' & E & Lc & Ek & S1 & S2 & W1 & W2 & Hs1); [lia|auto|]. rewrite E.
    pose proof (firstn_skipn_split changed cursor c' ltac:(lia)) as Sp. rewrite <- Ek in Sp.
    assert (SS : strictly_sorted (skipn cursor changed)). { rewrite <- (firstn_skipn cursor changed) in SC. apply strictly_sorted_app in SC. apply SC. }
    assert (SS' := SS). rewrite Sp in SS'. apply strictly_sorted_app in SS'. destruct SS' as (SK & SR & SKR).
    destruct (window_ok c' (w_keys w) mn1' mn2' emitted s1 (w_input w) (w_output w) seeds Hs1 S1 S2 SK W1 W2 He Hsd) as (states & np & seeds' & deltas & s2 & s3 & emitted1 & mn2'' & new1 & E1 & E2 & E3 & Hs3 & He1 & Wt1 & Hsd' & Hse' & Wk1).
    { intros h Hh. apply Hse. rewrite Sp. apply in_app_iff. auto. }
    rewrite E1, E2, E3.
    destruct (IH c' (w_keys w) mn1' mn2'' emitted1 s3 seeds' Hs3) as (next & s' & emitted' & keys' & mn1f & mn2f & new2 & E4 & Hs4 & He4 & Wt4 & Wk4); [lia|lia|auto|auto| |].
    { intros h Hh. rewrite Hse'; [apply Hse; rewrite Sp; apply in_app_iff; auto|]. apply Forall_forall. intros k Hk. apply SKR; auto. }
    rewrite E4. exists (np ++ next), s', emitted', keys', mn1f, mn2f, (new1 ++ new2). split; [auto|]. split; [auto|]. split; [auto|]. split.
    + eapply same_weights_trans; [exact Wt4|]. rewrite app_assoc. apply same_weights_app; [exact Wt1|apply same_weights_refl].
    + rewrite Sp. apply worked_app; auto. rewrite <- Sp. auto.
Qed.
End Windows.

(** ** The round *)
Section Retire.
Context {B1 M1 B2 M2 K V1 V2 T R1 R2 H I S : Type} {OK : Ord K} {OV1 : Ord V1} {OV2 : Ord V2} {OH : Ord H} {OI : Ord I} {TT : Time T} {D1 : Diff R1} {D2 : Diff R2} {A2 : Abelian R2}.
Notation meaning := (meaning (K:=K) (H:=H) (I:=I)).
Variable bops1 : BatchOps B1 M1 T. Variable contents1 : B1 -> list (K * V1 * T * R1). Variable laws1 : BatchLaws (D:=K*V1) bops1 contents1.
Variable bops2 : BatchOps B2 M2 T. Variable contents2 : B2 -> list (K * V2 * T * R2). Variable laws2 : BatchLaws (D:=K*V2) bops2 contents2.
Variable backend : ReduceBackend B1 B2 T R1 R2 H I S.
Variable hash : K -> H. Variable F : K -> list (V1 * R1) -> V2 -> R2.
Hypothesis F_nil : forall k v, F k [] v = dzero.
Variable idle : S -> Prop.
Variable session : ReduceInstance B1 B2 T -> list H -> list (Description T) -> nat -> list H -> meaning V1 -> meaning V2 -> list (list (K * V2 * T * R2)) -> S -> Prop.
Hypothesis HS : serves bops1 contents1 laws1 bops2 contents2 laws2 backend hash F idle session.
Notation times l := (map (fun u => snd (fst u)) l).

(** the batches, as they are for the tiles *)
Lemma batches_ok held (descs : list (Description T)) th : Forall2 (tile_fits held) descs th -> forall lo up (emitted : list (list (K * V2 * T * R2))) batches, length emitted = length descs -> chained lo descs up ->
  (forall tile e u, nth_error emitted tile = Some e -> In u e -> exists d h, nth_error descs tile = Some d /\ nth_error th tile = Some h /\ tle h (snd (fst u)) = true /\ beyond (d_lower d) (snd (fst u)) /\ ~ beyond (d_upper d) (snd (fst u))) ->
  Forall2 (fun de b => bl_ok _ _ laws2 b /\ b_desc bops2 b = fst de /\ same_weights (A:=K*V2*T) (contents2 b) (snd de) /\ Forall (fun u => In (snd (fst u)) (times (snd de))) (contents2 b)) (List.combine descs emitted) batches ->
  let produced := List.combine th batches in
  tiles bops2 lo (map snd produced) up /\ Forall (tile_ok bops2 contents2 laws2 held) produced /\ same_weights (A:=K*V2*T) (flat_map contents2 (map snd produced)) (concat emitted).
Proof.
  induction 1 as [|d h descs th Hd HF IH]; intros lo up emitted batches El HC HI HB.
  - destruct emitted; [|discriminate]. inversion HB; subst. cbn. split; [constructor; exact HC|]. split; [constructor|apply same_weights_refl].
  - destruct emitted as [|e emitted]; [discriminate|]. cbn [List.combine] in HB. inversion HB as [|? b ? batches' (O1 & O2 & O3 & O4) HB']; subst. cbn [fst snd] in *. destruct HC as [HC1 HC2].
    destruct (IH (d_upper d) up emitted batches') as (Q1 & Q2 & Q3); [cbn [length] in El; lia|auto| |auto|].
    { intros tile e' u Ee Hu. apply (HI (Datatypes.S tile) e' u Ee Hu). }
    cbn [List.combine map snd flat_map concat].
    assert (El' : lower_of bops2 b = d_lower d) by (unfold BatchLaws.lower_of; rewrite O2; auto). assert (Eu : upper_of bops2 b = d_upper d) by (unfold BatchLaws.upper_of; rewrite O2; auto).
    assert (Es : since_of bops2 b = d_since d) by (unfold BatchLaws.since_of; rewrite O2; auto). destruct Hd as (F1 & F2 & F3 & F4 & F5 & F6 & F7).
    split; [constructor; [rewrite El'; auto|rewrite Eu; auto]|]. split; [|apply same_weights_app; auto]. constructor; auto. unfold tile_ok. cbn [fst snd]. rewrite Es, El', Eu. split; [|split; [auto|split; [auto|split; [auto|]]]].
    + constructor; rewrite ?El', ?Eu; auto. intros En. rewrite En in F3. destruct (beyond_nil _ F3).
    + rewrite Forall_forall in *. intros u Hu. specialize (O4 u Hu). apply in_map_iff in O4. destruct O4 as (u' & Et & Hu'). rewrite <- Et. destruct (HI 0 e u' eq_refl Hu') as (d' & h' & E1 & E2 & G). cbn [nth_error] in E1, E2. injection E1 as <-. injection E2 as <-. exact G.
Qed.

Lemma proxy_retire_ok (O : T -> Prop) (source : list B1) (output : list B2) (input : list B1) (lower upper held : list T) (pending : list (H * list T)) s :
  (forall t, O t -> seen upper t) -> idle s -> Forall (bl_ok _ _ laws1) source -> Forall (bl_ok _ _ laws2) output -> Forall (bl_ok _ _ laws1) input ->
  strictly_sorted (map fst pending) -> Forall (fun kp => snd kp <> [] /\ strictly_sorted (snd kp)) pending ->
  antichain lower -> antichain upper -> antichain held -> (forall t, beyond upper t -> beyond lower t) -> Forall (beyond lower) held ->
  (forall h ps p, In (h, ps) pending -> In p ps -> beyond held p) ->
  Forall (fun u => beyond held (snd (fst u)) /\ ~ beyond upper (snd (fst u))) (flat_map contents1 input) ->
  (forall k t, beyond lower t -> O t -> (forall ps p, In (hash k, ps) pending -> In p ps -> tle p t = false) -> right_for F k t (flat_map contents1 source) (flat_map contents2 output)) ->
  exists produced frontier next s' up, proxy_retire backend source output input lower upper held pending s = Some (produced, frontier, (next, s')) /\ idle s' /\
    tiles bops2 lower (map snd produced) up /\ (forall t, beyond upper t -> beyond up t) /\ Forall (tile_ok bops2 contents2 laws2 held) produced /\
    strictly_sorted (map fst next) /\ Forall (fun kp => snd kp <> [] /\ strictly_sorted (snd kp)) next /\
    antichain frontier /\ Forall (fun t => beyond held t /\ beyond upper t) frontier /\ (forall h ps p, In (h, ps) next -> In p ps -> beyond frontier p /\ beyond upper p) /\
    (forall h ps p, In (h, ps) next -> In p ps -> (exists ps', In (h, ps') pending /\ In p ps') \/ exists sd, ((exists ps', In (h, ps') pending /\ In sd ps') \/ exists u, In u (flat_map contents1 input) /\ hash (fst (fst (fst u))) = h /\ snd (fst u) = sd) /\ tle sd p = true) /\
    (forall k t, beyond lower t -> O t -> (forall ps p, In (hash k, ps) next -> In p ps -> tle p t = false) ->
       right_for F k t (flat_map contents1 (source ++ input)) (flat_map contents2 (output ++ map snd produced))) /\
    (frontier = ac_from (flat_map snd next) \/ frontier = held /\ next = pending /\ s' = s /\ Forall (beyond upper) held).
Proof.
  intros HO' Is HSo HO HI SP NP AL AU AH UL HH HP HN Hbase. unfold proxy_retire.
  assert (Nin : forall u, In u (flat_map contents1 input) -> beyond held (snd (fst u)) /\ ~ beyond upper (snd (fst u))) by (apply Forall_forall; auto).
  destruct (forallb (fun t => ac_less_equal upper t) held) eqn:Ef.
  { rewrite forallb_forall in Ef. assert (Hup : forall t, beyond held t -> beyond upper t) by (intros t (h & Hh & L); apply (beyond_mono _ h); auto; apply ac_less_equal_spec; auto).
    assert (Hin : flat_map contents1 input = []). { destruct (flat_map contents1 input) as [|u us]; auto. exfalso. destruct (Nin u (or_introl eq_refl)) as [N1 N2]. auto. }
    exists [], held, pending, s, lower. split; [auto|]. split; [auto|]. split; [constructor; intros t; tauto|]. split; [auto|]. split; [constructor|]. split; [auto|]. split; [auto|]. split; [auto|].
    split; [apply Forall_forall; intros t Ht; split; [apply beyond_in; auto|apply ac_less_equal_spec; auto]|]. split; [intros h ps p H1 H2; split; [eapply HP; eauto|apply Hup; eapply HP; eauto]|].
    split; [intros h ps p H1 H2; left; eauto|]. split; [|right; split; [auto|split; [auto|split; [auto|apply Forall_forall; intros t Ht; apply ac_less_equal_spec; auto]]]]. intros k t Bt Vt Hn. cbn [map]. rewrite app_nil_r, flat_map_app, Hin, app_nil_r. apply Hbase; auto. }
  set (inst := {| ri_source := source; ri_input := input; ri_output := output; ri_lower := lower |}).
  assert (WF : well_formed bops1 contents1 laws1 bops2 contents2 laws2 inst) by (split; [|split]; auto).
  destruct (sv_seeds _ _ _ _ _ _ _ _ _ _ _ HS inst s Is WF) as [SS Sin]. set (seeds := rb_seed_times backend inst s) in *. cbn [ri_input inst] in Sin.
  set (changed := sort_dedup (map fst seeds ++ map fst pending)).
  assert (NPs : Forall (fun kp => strictly_sorted (snd kp)) pending) by (eapply Forall_impl; [|exact NP]; cbv beta; tauto).
  assert (Mk : forall h sd, In sd (marks pending seeds h) <-> (exists u, In u (flat_map contents1 input) /\ hash (fst (fst (fst u))) = h /\ snd (fst u) = sd) \/ exists ps, In (h, ps) pending /\ In sd ps).
  { intros h sd. unfold marks. rewrite in_app_iff, (pending_at_in pending h sd SP), <- Sin. unfold with_key. rewrite in_map_iff. split; intros [Hx|Hx]; auto; left.
    - destruct Hx as ([h' t'] & E & Hx). apply filter_In in Hx. destruct Hx as [Hx Ex]. cbn [fst snd] in *. destruct (eqb_spec h' h); [subst; auto|discriminate].
    - exists (h, sd). split; [auto|]. apply filter_In. split; [auto|]. apply eqb_refl. }
  assert (MH : forall h sd, In sd (marks pending seeds h) -> beyond held sd).
  { intros h sd Hsd. apply Mk in Hsd. destruct Hsd as [(u & Hu & _ & <-)|(ps & Hps & Hp)]; [apply (Nin u Hu)|eapply HP; eauto]. }
  assert (TC : forall h t, touched pending seeds h t -> In h changed).
  { intros h t (sd & Hsd & _). apply Mk in Hsd. unfold changed. apply (proj2 (sort_dedup_in _ _)). apply in_app_iff. destruct Hsd as [(u & Hu)|(ps & Hps & Hp)].
    - left. apply in_map_iff. exists (h, sd). split; [auto|]. apply Sin. eauto.
    - right. apply in_map_iff. exists (h, ps). auto. }
  assert (TD : forall h t, touched pending seeds h t \/ ~ touched pending seeds h t).
  { intros h t. destruct (existsb (fun sd => tle sd t) (marks pending seeds h)) eqn:E; [left|right]. - apply existsb_exists in E. exact E. - intros (sd & Hsd & L). assert (existsb (fun sd => tle sd t) (marks pending seeds h) = true); [|congruence]. apply existsb_exists. eauto. }
  (* where nothing new is at or before a time *)
  assert (Base : forall k t, beyond lower t -> O t -> ~ touched pending seeds (hash k) t -> right_for F k t (flat_map contents1 (source ++ input)) (flat_map contents2 output)).
  { intros k t Bt Vt N. eapply right_for_ext; [|intros v; reflexivity|apply (Hbase k t Bt Vt)].
    - intros a. rewrite flat_map_app, acc_app. assert (E : acc (flat_map contents1 input) (k, a) t = dzero); [|rewrite E, dplus_0_r; auto].
      rewrite <- acc_of_key. apply acc_none. intros u Hu. apply in_of_key in Hu. destruct (tle (snd (fst u)) t) eqn:L; auto. destruct N. exists (snd (fst u)). split; [|auto]. apply Mk. left. eexists. split; [exact Hu|]. auto.
    - intros ps p Hps Hp. destruct (tle p t) eqn:L; auto. destruct N. exists p. split; [|auto]. apply Mk. right. eauto. }
  destruct (is_nil changed) eqn:En.
  { assert (Ec : changed = []) by (destruct changed; [auto|discriminate]).
    exists [], [], [], s, lower. split; [auto|]. split; [auto|]. split; [constructor; intros t; tauto|]. split; [auto|]. split; [constructor|]. split; [constructor|]. split; [constructor|]. split; [constructor|]. split; [constructor|].
    split; [intros h ps p []|]. split; [intros h ps p []|]. split; [|left; reflexivity]. intros k t Bt Vt _. cbn [map]. rewrite app_nil_r. apply Base; auto. intros Ht. apply TC in Ht. rewrite Ec in Ht. destruct Ht. }
  assert (Hne : held <> []) by (intros ->; discriminate).
  destruct (tile_loop_ok upper AU held lower 0 AL HH UL) as (descs & th & tof & Et & T1 & T2 & T3 & T4); [congruence|]. unfold tile_descriptions. rewrite Et.
  pose proof (sv_begin _ _ _ _ _ _ _ _ _ _ _ HS inst s changed descs Is WF) as Hb.
  assert (SC : strictly_sorted changed) by apply sort_dedup_sorted.
  destruct (windows_ok bops1 contents1 laws1 bops2 contents2 laws2 backend hash F F_nil idle session HS inst changed upper held pending descs th tof T1 T4 seeds NPs MH SC (Datatypes.S (length changed)) 0 [] (fun _ _ => None) (fun _ _ => None) (map (fun _ => []) descs) (rb_begin backend descs s) seeds Hb)
    as (next & s1 & emitted & keys' & mn1 & mn2 & new & Ew & Hs1 & He & Wt & Wk).
  { lia. } { lia. } { split; [apply map_length|]. intros tile e u Ee Hu. apply nth_error_In in Ee. apply in_map_iff in Ee. destruct Ee as (_ & <- & _). destruct Hu. } { exact SS. } { auto. }
  rewrite Ew. destruct (sv_finish _ _ _ _ _ _ _ _ _ _ _ HS inst changed descs keys' mn1 mn2 emitted s1 Hs1) as (s' & batches & Efn & Is' & HB). rewrite Efn.
  destruct (batches_ok held descs th T3 lower upper emitted batches (proj1 He) T2 (proj2 He) HB) as (B1' & B2' & B3').
  cbn [skipn] in Wk. destruct Wk as [k1 k2 k3 k4 k5].
  assert (En0 : concat (map (fun _ : Description T => @nil (K * V2 * T * R2)) descs) = []) by (clear; induction descs; auto). rewrite En0 in Wt. cbn [app] in Wt.
  assert (Kp : forall h ps p, In (h, ps) next -> In p ps -> beyond upper p /\ touched pending seeds h p).
  { intros h ps p Hps Hp. rewrite Forall_forall in k2. destruct (k2 _ Hps) as (_ & _ & _ & G). cbn [fst snd] in G. rewrite Forall_forall in G. apply G; auto. }
  exists (List.combine th batches), (ac_from (flat_map snd next)), next, s', upper. split; [auto|]. split; [auto|]. split; [exact B1'|]. split; [auto|]. split; [exact B2'|]. split; [exact k1|].
  split; [eapply Forall_impl; [|exact k2]; cbv beta; tauto|]. split; [apply ac_from_antichain|]. split.
  { apply Forall_forall. intros t Ht. assert (Hi : In t (flat_map snd next)) by (unfold ac_from in Ht; apply ac_extend_incl in Ht; destruct Ht as [[]|Ht]; exact Ht). apply in_flat_map in Hi. destruct Hi as ([h ps] & Hps & Hp). cbn [snd] in Hp. destruct (Kp h ps t Hps Hp) as [Bu (sd & Hsd & L)]. split; [|auto]. eapply beyond_mono; [exact L|]. eapply MH; eauto. }
  split. { intros h ps p Hps Hp. split; [|eapply Kp; eauto]. apply ac_from_beyond. apply beyond_in. apply in_flat_map. exists (h, ps). auto. }
  split. { intros h ps p Hps Hp. right. destruct (Kp h ps p Hps Hp) as [_ (sd & Hsd & L)]. exists sd. split; [|auto]. apply Mk in Hsd. tauto. }
  split; [|left; reflexivity]. intros k t Bt Vt Hn. assert (Eo : forall v, acc (flat_map contents2 (output ++ map snd (List.combine th batches))) (k, v) t = dplus (acc (flat_map contents2 output) (k, v) t) (acc new (k, v) t)).
  { intros v. rewrite flat_map_app, acc_app. f_equal. rewrite (acc_same_weights _ _ _ _ B3'). apply acc_same_weights. exact Wt. }
  destruct (TD (hash k) t) as [Tt|Nt].
  - eapply right_for_ext; [intros; reflexivity| |apply (k5 k t (TC _ _ Tt) Bt (HO' _ Vt) Tt Hn)]. intros v. rewrite Eo, acc_app. auto.
  - eapply right_for_ext; [intros; reflexivity| |apply (Base k t Bt Vt Nt)]. intros v. rewrite Eo, (k4 k v t Nt), dplus_0_r. auto.
Qed.
End Retire.
