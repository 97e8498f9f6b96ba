(** What the loop of [discover_times] leaves, and that it suffices. *)
From Coq Require Import Sorting.Sorted.
From Verif Require Export Proofs.DiscoverP.
From Verif Require Import Base.Order.

(** ** What the loop leaves *)
Section Result.
Context {V V2 T R R2 : Type} {OV : Ord V} {OV2 : Ord V2} {TT : Time T} {DR : Diff R} {D2 : Diff R2} {A2 : Abelian R2}.
Notation times l := (map (fun u => snd (fst u)) l).
Notation update := (V * T * R)%type.
Variable upper : list T.
Variables LB LO P : list T. Variable LI : list update.
Variable okt : T -> Prop.
Hypothesis okt_down : forall r t, tle r t = true -> okt t -> okt r.
Hypothesis okt_chain : forall t x, okt t -> In x (times LI ++ LO) -> ac_less_equal upper x = true -> tle x t = true ->
  forall y, tle y t = true -> le y x -> tle y x = true.

Lemma StronglySorted_map_lt (l : list (T * T)) : StronglySorted (fun a b : T * T => lt (fst a) (fst b) /\ tle (snd a) (snd b) = true) l -> strictly_sorted (map fst l).
Proof.
  induction 1 as [|a l H IH HF]; [constructor|]. cbn [map]. apply strictly_sorted_cons; auto. apply Forall_map. eapply Forall_impl; [|exact HF]. intros b [Hb _]. exact Hb.
Qed.

Lemma discover_suffices g s : dinv upper LB LO P LI g s -> rem g s = [] ->
  strictly_sorted (ds_moments s) /\ Forall (fun x => ac_less_equal upper x = false /\ kseeded LB P x) (ds_moments s) /\
  Forall (fun y => ac_less_equal upper y = true /\ kseeded LB P y) (ds_pended s) /\
  forall (F : T -> V2 -> R2) (out prod : list (V2 * T * R2)),
    (forall t t', kseeded LB P t -> kseeded LB P t' -> (forall v, acc LI v t = acc LI v t') -> forall v, F t v = F t' v) ->
    (forall e, In e (times out) -> In e LO) -> (forall u, In u prod -> In (snd (fst u)) (ds_moments s)) ->
    (forall x, In x (ds_moments s) -> forall v, F x v = dplus (acc out v x) (acc prod v x)) ->
    forall t, okt t -> kseeded LB P t -> (forall y, In y (ds_pended s) -> tle y t = false) -> forall v, F t v = dplus (acc out v t) (acc prod v t).
Proof.
  intros C Hr. pose proof (di_moi _ _ _ _ _ _ _ C) as MI. rewrite Forall_forall in MI. pose proof (di_mo _ _ _ _ _ _ _ C) as EM.
  assert (MS : forall x, In x (ds_moments s) -> exists m, In (x, m) (mo g)).
  { intros x Hx. rewrite EM in Hx. apply in_map_iff in Hx. destruct Hx as ([x' m] & <- & H). exists m. auto. }
  split; [rewrite EM; apply StronglySorted_map_lt, (di_mos _ _ _ _ _ _ _ C)|]. split.
  { apply Forall_forall. intros x Hx. destruct (MS x Hx) as (m & Hm). destruct (MI _ Hm) as (_ & _ & H & (b & Hb & L) & _). cbn [fst snd] in *. split; auto.
    pose proof (kset_seeded _ _ _ _ _ _ _ b C Hb) as (sd & H1 & H2). exists sd. split; auto. eapply tle_trans; eauto. }
  split; [apply (di_new _ _ _ _ _ _ _ C)|]. intros F out prod Fe Ho Hp HM t Ot (sd & Hsd & Lsd) Hn.
  set (mm := fun x => match find (fun p : T * T => eqb (fst p) x) (mo g) with Some p => snd p | None => x end).
  assert (MM : forall x, In x (ds_moments s) -> In (x, mm x) (mo g)).
  { intros x Hx. destruct (MS x Hx) as (m & Hm). unfold mm. destruct (find (fun p : T * T => eqb (fst p) x) (mo g)) as [[x' m']|] eqn:Ef.
    - apply find_some in Ef. destruct Ef as [H1 H2]. cbn [fst snd] in *. destruct (eqb_spec x' x) as [->|]; [auto|discriminate].
    - apply (find_none _ _ Ef) in Hm. cbn [fst] in Hm. rewrite eqb_refl in Hm. discriminate. }
  unfold rem in Hr. apply app_eq_nil in Hr. destruct Hr as [R1 Hr]. apply app_eq_nil in Hr. destruct Hr as [R2' Hr]. apply app_eq_nil in Hr. destruct Hr as [R3 Hr].
  apply app_eq_nil in Hr. destruct Hr as [R4 R5]. apply map_eq_nil in R2'.
  assert (EV : forall e, event LI out (kset LB P g) e -> In e (vis g)).
  { intros e He. apply (di_ent _ _ _ _ _ _ _ C). destruct He as [He|[He|He]].
    - rewrite (di_LI _ _ _ _ _ _ _ C), R2', app_nil_r in He. rewrite !in_app_iff. auto.
    - apply Ho in He. rewrite (di_LO _ _ _ _ _ _ _ C), R3, app_nil_r in He. rewrite !in_app_iff. auto.
    - unfold kset in He. rewrite !in_app_iff in *. destruct He as [He|[He|He]].
      + rewrite (di_LB _ _ _ _ _ _ _ C), R1, app_nil_r in He. auto.
      + destruct (di_times _ _ _ _ _ _ _ C) as (passed & E & H). rewrite E, R4, app_nil_r in He. auto.
      + apply (di_sy _ _ _ _ _ _ _ C) in He. rewrite R5 in He. destruct He as [He|[]]. auto. }
  pose proof (right_everywhere LI out prod (kset LB P g) (ds_pended s) (ds_moments s) mm (fun t => okt t /\ forall y, In y (ds_pended s) -> tle y t = false)) as RE.
  apply RE with (b := sd) (F := F); auto; clear RE.
  - intros r t' L [H1 H2]. split; [eapply okt_down; eauto|]. intros y Hy. destruct (tle y r) eqn:Ly; auto. rewrite <- (H2 y Hy). symmetry. eapply tle_trans; eauto.
  - intros n Hn' [_ H]. pose proof (H n Hn') as H'. rewrite tle_refl in H'. discriminate.
  - intros x Hx. apply (MI _ (MM x Hx)).
  - intros x y Hx Hy L. pose proof (MM x Hx) as Mx. pose proof (MM y Hy) as My. pose proof (di_mos _ _ _ _ _ _ _ C) as SS.
    revert Mx My L. generalize (mm x) (mm y). clear -SS. intros m m'. induction SS as [|a l H IH HF]; [intros []|]. rewrite Forall_forall in HF.
    intros [->|Hx] [E|Hy] L; auto.
    + inversion E; subst. destruct (lt_irrefl _ L).
    + apply (HF _ Hy).
    + subst a. destruct (HF _ Hx) as [H1 _]. cbn [fst] in H1. destruct (lt_irrefl _ (lt_trans _ _ _ L H1)).
  - intros x e Hx He L. apply (di_B _ _ _ _ _ _ _ C x (mm x)); auto. destruct He as [He|He]; auto.
  - intros x e Hx He L. apply (di_B2 _ _ _ _ _ _ _ C x (mm x) e); auto.
  - intros e b t' [H1 H2] He Hb Le Lb L. destruct (ac_less_equal upper e) eqn:U; [|apply (di_C _ _ _ _ _ _ _ C); auto].
    destruct (In_dec (fun a b => match eqb_spec a b with ReflectT _ H => left H | ReflectF _ H => right H end) e (kset LB P g)) as [Ke|Ke].
    + exfalso. destruct (di_C' _ _ _ _ _ _ _ C e e (EV e He) Ke (tle_refl _)) as [H|H].
      * destruct (MI _ (MM e H)) as (_ & _ & H' & _). cbn [fst] in H'. congruence.
      * rewrite (H2 e H) in Le. discriminate.
    + left. apply (okt_chain t'); auto. rewrite in_app_iff. destruct He as [He|[He|He]]; [auto|auto|contradiction].
  - intros e b He Hb L. apply (di_C' _ _ _ _ _ _ _ C e b); auto.
  - intros x Hx. destruct (MI _ (MM x Hx)) as (_ & _ & _ & H & _). exact H.
  - assert (AK : forall x, after_K (kset LB P g) x -> kseeded LB P x).
    { intros x (b & Hb & L). destruct (kset_seeded _ _ _ _ _ _ _ b C Hb) as (b' & H1 & H2). exists b'. split; auto. eapply tle_trans; eauto. }
    intros t1 t2 H1 H2 HE. apply Fe; auto.
  - unfold kset. rewrite app_assoc. apply in_app_iff. auto.
Qed.
End Result.

Section Loading.
Context {T : Type} {TT : Time T}.
Lemma acc_advanced {V R} {OV : Ord V} {DR : Diff R} (l : list (V * T * R)) m v t : (forall y, m = Some y -> tle y t = true) ->
  acc (map (fun u => (fst (fst u), advance_opt m (snd (fst u)), snd u)) l) v t = acc l v t.
Proof.
  intros H. induction l as [|u l IH]; auto. cbn [map]. rewrite !acc_cons', IH. cbn [fst snd]. f_equal. destruct m as [m|]; cbn [advance_opt]; auto.
  rewrite join_tle_b, (H m eq_refl), andb_true_r. auto.
Qed.
Lemma ungroup_sealed {V R} {DR : Diff R} (Q : T -> Prop) (gs : list (V * list (T * R))) v pend : Forall (fun u => Q (snd (fst u))) (ungroup gs) -> Forall (fun td => Q (fst td)) pend ->
  Forall (fun u => Q (snd (fst u))) (ungroup (sealed gs v pend)).
Proof.
  intros H1 H2. unfold sealed. assert (H3 : Forall (fun td => Q (fst td)) (consolidate pend)).
  { rewrite Forall_forall in *. intros x Hx. apply (in_map fst), consolidate_incl, in_map_iff in Hx. destruct Hx as (y & <- & Hy). auto. }
  destruct (consolidate pend) as [|x l]; auto. unfold ungroup in *. rewrite flat_map_app. apply Forall_app. split; auto. cbn [flat_map fst snd]. rewrite app_nil_r. apply Forall_map. auto.
Qed.
Lemma load_iter_loop_times {V R} {OV : Ord V} {DR : Diff R} (Q : T -> Prop) adv : forall edits cur (el : EditList V T R) gs pend, el_rel el gs pend -> (cur = None -> pend = []) ->
  Forall (fun u : V * T * R => Q (advance_opt adv (snd (fst u)))) edits -> Forall (fun u => Q (snd (fst u))) (ungroup gs) -> Forall (fun td => Q (fst td)) pend ->
  exists el' gs', load_iter_loop edits adv cur el = Some el' /\ el_rel el' gs' [] /\ Forall (fun u => Q (snd (fst u))) (ungroup gs').
Proof.
  induction edits as [|[[v t] d] edits IH]; intros cur el gs pend H HP HE HG Hp.
  - cbn [load_iter_loop]. destruct cur as [pv|].
    + destruct (el_seal_rel _ _ _ pv H) as (el' & E & R'). exists el', (sealed gs pv pend). split; [auto|]. split; [auto|]. apply ungroup_sealed; auto.
    + rewrite HP in H by auto. exists el, gs. auto.
  - cbn [load_iter_loop]. apply Forall_cons_iff in HE. destruct HE as [Q1 HE]. cbn [fst snd] in Q1.
    assert (Go : forall el1 gs1 pend1, el_rel el1 gs1 pend1 -> Forall (fun u => Q (snd (fst u))) (ungroup gs1) -> Forall (fun td => Q (fst td)) pend1 ->
      exists el' gs', load_iter_loop edits adv (Some v) (el_push el1 (advance_opt adv t) d) = Some el' /\ el_rel el' gs' [] /\ Forall (fun u => Q (snd (fst u))) (ungroup gs')).
    { intros el1 gs1 pend1 H1 G1 P1. apply (IH (Some v) _ _ _ (el_push_rel _ _ _ (advance_opt adv t) d H1) ltac:(discriminate) HE G1). apply Forall_app. split; auto. }
    destruct cur as [pv|].
    + destruct (eqb_spec pv v) as [->|N]; [apply (Go el gs pend); auto|]. destruct (el_seal_rel _ _ _ pv H) as (el' & E & R'). rewrite E.
      apply (Go el' _ _ R'); auto. apply ungroup_sealed; auto.
    + rewrite HP in H by auto. apply (Go el gs []); auto.
Qed.
Lemma load_iter_times {V R} {OV : Ord V} {DR : Diff R} (Q : T -> Prop) adv (edits : list (V * T * R)) h us : load_iter edits adv = Some h -> el_map (vh_edits h) = Some us ->
  Forall (fun u : V * T * R => Q (advance_opt adv (snd (fst u)))) edits -> Forall (fun u => Q (snd (fst u))) us.
Proof.
  intros E1 E2 HE. destruct (load_iter_loop_times Q adv edits None el_new [] [] el_new_rel ltac:(auto) HE ltac:(constructor) ltac:(constructor)) as (el & gs & E & R' & H).
  unfold load_iter in E1. rewrite E in E1. pose proof (el_map_rel _ _ R') as M. destruct (vh_build_ok _ _ M) as (h' & us' & B & _ & B3 & _ & _).
  rewrite B in E1. injection E1 as <-. rewrite B3, M in E2. injection E2 as <-. auto.
Qed.
End Loading.

Section Discovered.
Context {V V2 T R R2 : Type} {OV : Ord V} {OV2 : Ord V2} {TT : Time T} {DR : Diff R} {D2 : Diff R2} {A2 : Abelian R2}.
Notation times l := (map (fun u => snd (fst u)) l).
(** What [discover_times] finds suffices: see the property. *)
Lemma discover_times_ok (upper : list T) (input : list (V * T * R)) (pending seeds : list T) (output : list (V2 * T * R2)) :
  StronglySorted le pending ->
  let seeded t := exists sd, In sd (seeds ++ pending) /\ tle sd t = true in
  exists moments pended, discover_times upper input pending seeds (times output) = Some (moments, pended) /\
    strictly_sorted moments /\ Forall (fun x => ac_less_equal upper x = false /\ seeded x) moments /\
    strictly_sorted pended /\ Forall (fun y => ac_less_equal upper y = true /\ seeded y) pended /\
    forall (F : T -> V2 -> R2) (prod : list (V2 * T * R2)),
      (forall t t', seeded t -> seeded t' -> (forall v, acc input v t = acc input v t') -> forall v, F t v = F t' v) ->
      (forall u, In u prod -> In (snd (fst u)) moments) ->
      (forall x, In x moments -> forall v, F x v = dplus (acc output v x) (acc prod v x)) ->
      forall t, ac_less_equal upper t = false \/ (forall x y, tle x t = true -> tle y t = true -> tle x y = true \/ tle y x = true) ->
        seeded t -> (forall y, In y pended -> tle y t = false) -> forall v, F t v = dplus (acc output v t) (acc prod v t).
Proof.
  intros SP seeded. unfold discover_times. set (batch := th_load seeds None). set (m := update_meet (update_meet None (hd_error (suffix_meet pending))) (th_meet batch)).
  pose proof (th_load_ok seeds None) as RB. fold batch in RB. cbn [advance_opt] in RB. set (LB := osort (map (fun t => t) seeds)) in *.
  change (map (advance_opt None) seeds) with (map (fun t : T => t) seeds) in RB. fold LB in RB.
  assert (LBin : forall y, In y LB <-> In y seeds).
  { intros y. unfold LB. rewrite map_id. split; apply Permutation_in; [|symmetry]; apply osort_perm. }
  destruct (load_iter_ok input m) as (hi & us & E1 & E2 & E3 & E4). rewrite E1. destruct (vh_build_ok _ _ E2) as (h' & LI & B1 & B2 & _ & B4 & B5). rewrite E3 in B1. injection B1 as <-.
  pose proof (th_load_ok (times output) m) as RO. set (ho := th_load (times output) m) in *. set (LO := osort (map (advance_opt m) (times output))) in *.
  assert (LOin : forall y, In y LO <-> In y (map (advance_opt m) (times output))).
  { intros y. unfold LO. split; apply Permutation_in; [|symmetry]; apply osort_perm. }
  assert (GM : glb m (pending ++ LB)).
  { unfold m. apply update_meet_glb; [|apply th_meet_glb; auto]. apply (update_meet_glb None _ [] pending); [apply glb_nil|apply suffix_meet_glb]. }
  assert (LIw : same_weights (A:=V*T) LI (map (fun u => (fst (fst u), advance_opt m (snd (fst u)), snd u)) input)).
  { eapply same_weights_trans; [|exact E4]. apply weight_perm. exact B4. }
  set (s0 := {| ds_batch := batch; ds_input := hi; ds_output := ho; ds_times := pending; ds_meets := suffix_meet pending; ds_synth := []; ds_current := []; ds_meet := m; ds_moments := []; ds_pended := [] |}).
  set (g0 := {| eb := []; rb := LB; ei := []; ri := LI; eo := []; ro := LO; ec := []; sy := []; mo := []; vis := [] |}).
  assert (MB : forall y, m = Some y -> Forall (fun t => tle y t = true) (pending ++ LB)). { intros y E. rewrite E in GM. apply GM. apply tle_refl. }
  assert (CN : forall c : T -> Prop, curok c [] []) by (intros c; split; [constructor|intros e []]).
  assert (C : dinv upper LB LO pending LI g0 s0).
  { constructor; cbn [g0 s0 eb rb ei ri eo ro ec sy mo vis ds_batch ds_input ds_output ds_times ds_meets ds_synth ds_current ds_meet ds_moments ds_pended]; auto; try (intros; contradiction).
    - unfold buffer_times. rewrite B2. constructor.
    - intros z _ c v. rewrite B2. reflexivity.
    - exists []. auto.
    - destruct m as [m0|] eqn:Em; [|right; cbn in GM; apply app_eq_nil in GM; destruct GM as [G1 G2]; rewrite G1, G2; auto]. intros z.
      assert (EQ : Forall (fun t => tle z t = true) (rem g0 s0) <-> Forall (fun t => tle z t = true) (pending ++ LB)).
      { split; intros H; rewrite Forall_forall in *; intros y Hy.
        - apply H. unfold rem. cbn. rewrite !in_app_iff in *. tauto.
        - unfold rem in Hy. cbn in Hy. rewrite !in_app_iff in Hy. assert (Lz : tle z m0 = true) by (apply GM; apply Forall_forall; auto).
          destruct Hy as [Hy|[Hy|[Hy|[Hy|[]]]]]; try (apply H; rewrite in_app_iff; tauto).
          + assert (HA : exists t, y = join t m0).
            { apply in_map_iff in Hy. destruct Hy as (u & <- & Hu). assert (Hu' : In u us) by (eapply Permutation_in; [exact B4|exact Hu]).
              assert (Hall : Forall (fun u : V * T * R => exists t, snd (fst u) = join t m0) us); [|rewrite Forall_forall in Hall; auto].
              apply (load_iter_times (fun y => exists t, y = join t m0) _ _ _ _ E1 E2). apply Forall_forall. intros u' _. exists (snd (fst u')). auto. }
            destruct HA as (t & ->). eapply tle_trans; [exact Lz|apply join_ub_r].
          + apply LOin in Hy. apply in_map_iff in Hy. destruct Hy as (t & <- & _). cbn [advance_opt]. eapply tle_trans; [exact Lz|apply join_ub_r]. }
      rewrite EQ. apply GM.
    - constructor.
    - apply Forall_forall. intros y Hy. apply joins_base. unfold rem in Hy. cbn in Hy. rewrite app_nil_r in Hy. rewrite !in_app_iff in *. tauto.
    - constructor.
    - constructor. }
  destruct (dloop_finishes upper LB LO pending LI g0 s0 C eq_refl) as (s' & g' & E & C' & Hr).
  assert (EN : length seeds + length pending + length (vh_history hi) + length (times output) = length LB + length pending + length LI + length LO).
  { rewrite (replays_length _ _ B5). unfold LB, LO. rewrite !(Permutation_length (osort_perm _)), !map_length. auto. }
  rewrite EN, E. exists (ds_moments s'), (sort_dedup (ds_pended s')). split; [reflexivity|].
  assert (KS : forall t, kseeded LB pending t <-> seeded t).
  { intros t. unfold kseeded, seeded. split; intros (sd & H & L); exists sd; (split; [|exact L]); rewrite in_app_iff in *; rewrite LBin in *; auto. }
  assert (SM : forall t, seeded t -> forall y, m = Some y -> tle y t = true).
  { intros t (sd & Hs & L) y E0. pose proof (MB y E0) as H. rewrite Forall_forall in H. eapply tle_trans; [|exact L]. apply H. rewrite in_app_iff in *. rewrite LBin. tauto. }
  assert (AI : forall t v, seeded t -> acc LI v t = acc input v t). { intros t v Ht. rewrite (acc_same_weights _ _ v t LIw). apply acc_advanced. apply SM; auto. }
  set (okt := fun t => ac_less_equal upper t = false \/ (forall x y, tle x t = true -> tle y t = true -> tle x y = true \/ tle y x = true)).
  assert (UPM : forall r t, tle r t = true -> ac_less_equal upper r = true -> ac_less_equal upper t = true).
  { intros r t L H. unfold ac_less_equal in *. apply existsb_exists in H. destruct H as (a & Ha & La). apply existsb_exists. exists a. split; auto. eapply tle_trans; eauto. }
  assert (OKD : forall r t, tle r t = true -> okt t -> okt r).
  { intros r t L [H|H]; [left|right].
    - destruct (ac_less_equal upper r) eqn:U; auto. rewrite <- H. symmetry. eapply UPM; eauto.
    - intros x y Lx Ly. apply H; eapply tle_trans; eauto. }
  assert (OKC : forall t x, okt t -> In x (times LI ++ LO) -> ac_less_equal upper x = true -> tle x t = true -> forall y, tle y t = true -> le y x -> tle y x = true).
  { intros t x [H|H] _ U L y Ly Lyx; [rewrite (UPM _ _ L U) in H; discriminate|]. destruct (H y x Ly L) as [H'|H']; auto. apply tle_le in H'. rewrite (le_antisym y x); auto. apply tle_refl. }
  destruct (discover_suffices (V2:=V2) (R2:=R2) upper LB LO pending LI okt OKD OKC g' s' C' Hr) as (Q1 & Q2 & Q3 & Q4).
  split; [exact Q1|]. split; [eapply Forall_impl; [|exact Q2]; intros x [? ?]; split; auto; apply KS; auto|]. split; [apply sort_dedup_sorted|]. split.
  { apply Forall_forall. intros y Hy. apply (proj1 (sort_dedup_in (ds_pended s') y)) in Hy. rewrite Forall_forall in Q3. destruct (Q3 y Hy). split; auto. apply KS; auto. }
  intros F prod Fe Hp HM t Ht St Hn v.
  assert (SMo : forall x, In x (ds_moments s') -> seeded x). { intros x Hx. rewrite Forall_forall in Q2. apply KS. apply Q2; auto. }
  set (out' := map (fun u => (fst (fst u), advance_opt m (snd (fst u)), snd u)) output).
  assert (AO : forall t v, seeded t -> acc out' v t = acc output v t). { intros t' v' Ht'. apply acc_advanced. apply SM; auto. }
  rewrite <- (AO t v St). apply (Q4 F out' prod); auto.
  - intros t1 t2 H1 H2 HE. apply KS in H1, H2. apply Fe; auto. intros v'. rewrite <- !AI; auto.
  - intros e He. apply LOin. unfold out' in He. rewrite map_map in He |- *. cbn [fst snd] in He. auto.
  - intros x Hx v'. rewrite AO; auto.
  - apply KS; auto.
  - intros y Hy. apply Hn. apply sort_dedup_in; auto.
Qed.
End Discovered.
