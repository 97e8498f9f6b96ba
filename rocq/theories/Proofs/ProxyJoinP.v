(** The proxy join: the matches of the bridges, the chunks they are crossed in, and what they mean. *)
From Verif Require Export Spec.ProxyJoinSpec Proofs.JoinTacticP Props.ThinkProps.
From Coq Require Import Sorting.Sorted.
From Verif Require Import Base.Order.

Lemma flat_map_nil {A B} (l : list A) : flat_map (fun _ => @nil B) l = [].
Proof. induction l; auto. Qed.

(** ** Where the values of a replay come from *)
Section Items.
Context {V T R : Type} {OV : Ord V} {TT : Time T} {DR : Diff R}.
Variable Q : V -> Prop. Variable P : T -> Prop.
Definition el_fine (el : EditList V T R) : Prop := Forall (fun x => Q (fst x)) (el_values el) /\ Forall (fun x => P (fst x)) (el_edits el).
Lemma el_seal_fine (el el' : EditList V T R) v : el_fine el -> Q v -> el_seal el v = Some el' -> el_fine el'.
Proof.
  intros [H1 H2] Hv. unfold el_seal. destruct (_ <=? _); [|discriminate]. intros E; inversion E; subst; clear E. split; cbn [el_values el_edits].
  - destruct (_ <? _); auto. apply Forall_app; auto.
  - unfold consolidate_from. apply Forall_app; split; [apply Forall_firstn; auto|]. apply (consolidate_items P), Forall_skipn; auto.
Qed.
Lemma load_iter_fine : forall edits cur (el el' : EditList V T R), el_fine el -> (forall v, cur = Some v -> Q v) ->
  Forall (fun u => Q (fst (fst u)) /\ P (snd (fst u))) edits -> load_iter_loop edits None cur el = Some el' -> el_fine el'.
Proof.
  induction edits as [|[[v t] d] edits IH]; intros cur el el' H Hc HF E; cbn [load_iter_loop] in E.
  - destruct cur as [pv|]; [eapply el_seal_fine; eauto|inversion E; subst; auto].
  - inversion HF as [|? ? [Hv Ht] HF']; subst. cbn [fst snd] in *.
    assert (Go : forall el1 : EditList V T R, el_fine el1 -> load_iter_loop edits None (Some v) (el_push el1 (advance_opt None t) d) = Some el' -> el_fine el').
    { intros el1 [G1 G2] E'. refine (IH (Some v) _ _ _ _ HF' E'); [|intros w Ew; inversion Ew; subst; exact Hv]. split; cbn [el_push el_values el_edits]; auto. apply Forall_app; split; auto. }
    destruct cur as [pv|]; [|exact (Go el H E)]. destruct (eqb pv v); [exact (Go el H E)|]. destruct (el_seal el pv) as [el1|] eqn:Es; [|discriminate].
    apply (Go el1); auto. refine (el_seal_fine _ _ _ H _ Es). auto.
Qed.
Lemma el_map_fine (el : EditList V T R) us : el_fine el -> el_map el = Some us -> Forall (fun u => Q (fst (fst u)) /\ P (snd (fst u))) us.
Proof.
  intros [H1 H2]. unfold el_map. destruct (mapM _ _) as [uss|] eqn:E; [|discriminate]. intros E'; inversion E'; subst; clear E'.
  apply mapM_Forall2 in E. apply Forall_concat. induction E as [|i us' is uss Hi _ IH]; constructor; auto.
  destruct (el_bounds el i) as [[lo up]|]; [|discriminate]. destruct (get (el_values el) i) as [x|] eqn:Gx; [|discriminate].
  apply mapM_Forall2 in Hi. clear - H1 H2 Hi Gx. induction Hi as [|e u es us He _ IH]; constructor; auto.
  destruct (get (el_edits el) e) as [td|] eqn:G; [|discriminate]. inversion He; subst. simpl. rewrite Forall_forall in H1, H2. split; [apply H1|apply H2]; eapply nth_error_In; eauto.
Qed.
Lemma load_iter_replays (edits : list (V * T * R)) h : Forall (fun u => Q (fst (fst u)) /\ P (snd (fst u))) edits -> load_iter edits None = Some h ->
  exists rest, replays h rest /\ vh_buffer h = [] /\ Forall (fun u => Q (fst (fst u)) /\ P (snd (fst u))) rest.
Proof.
  intros HF E. destruct (load_iter_ok edits None) as (h' & us & E' & M & B & _). rewrite E in E'; inversion E'; subst h'; clear E'.
  destruct (vh_build_ok _ _ M) as (h' & us' & B' & Hb & _ & Hp & Hr). rewrite B in B'; inversion B'; subst h'. exists us'. split; auto. split; auto.
  eapply Permutation_Forall; [apply Permutation_sym; exact Hp|]. eapply el_map_fine; [|exact M].
  unfold load_iter in E. destruct (load_iter_loop edits None None el_new) as [el|] eqn:El; [|discriminate].
  assert (Ee : vh_edits h = el). { unfold vh_build in E. destruct (mapM _ _); [|discriminate]. inversion E; auto. }
  rewrite Ee. eapply load_iter_fine; [| |exact HF|exact El]; [split; constructor|discriminate].
Qed.
Definition vfine (h : ValueHistory V T R) (rest : list (V * T * R)) : Prop := Forall (fun u => Q (fst (fst u))) rest /\ Forall (fun u => Q (fst (fst u))) (vh_buffer h).
Lemma advance_fine h m' rest : vfine h rest -> vfine (vh_advance_buffer_by h m') rest.
Proof.
  intros [H1 H2]. split; auto. simpl. apply (consolidate_items (fun a : V * T => Q (fst a))). rewrite Forall_map. eapply Forall_impl; [|exact H2]. intros u Hu. exact Hu.
Qed.
End Items.

Section WaveItems.
Context {V1 V2 T R1 R2 : Type} {OV1 : Ord V1} {OV2 : Ord V2} {TT : Time T} {D1 : Diff R1} {D2 : Diff R2}.
Variable Q1 : V1 -> Prop. Variable Q2 : V2 -> Prop.
Notation call := (V1 * V2 * T * R1 * R2)%type.
Notation from := (fun c : call => Q1 (fst (fst (fst (fst c)))) /\ Q2 (snd (fst (fst (fst c))))).
Lemma wave1_items (h1 : ValueHistory V1 T R1) (h2 : ValueHistory V2 T R2) u1 rest1 rest2 h1' h2' o :
  replays h1 (u1 :: rest1) -> replays h2 rest2 -> vfine Q1 h1 (u1 :: rest1) -> vfine Q2 h2 rest2 -> wave1 h1 h2 = Some (h1', h2', o) ->
  Forall from o /\ replays h1' rest1 /\ replays h2' rest2 /\ vfine Q1 h1' rest1 /\ vfine Q2 h2' rest2.
Proof.
  intros P1 P2 F1 F2. unfold wave1. destruct (vh_meet h1) as [m'|]; [|discriminate]. rewrite (replays_edit _ _ P1). cbn [hd_error].
  destruct (replays_step _ _ _ P1) as (h1a & E1 & Eb & _ & P1a). rewrite E1. intros E; inversion E; subst; clear E.
  pose proof (advance_fine Q2 h2 m' rest2 F2) as F2'. destruct F1 as [Hf Hb]. inversion Hf; subst.
  split; [|split; [auto|split; [apply replays_advance; auto|split; [|auto]]]].
  - unfold emit1. rewrite Forall_map. destruct F2' as [_ Hb2]. eapply Forall_impl; [|exact Hb2]. intros u Hu; cbn [fst snd]; auto.
  - split; auto. rewrite Eb. apply Forall_app; auto.
Qed.
Lemma wave2_items (h1 : ValueHistory V1 T R1) (h2 : ValueHistory V2 T R2) u2 rest1 rest2 h1' h2' o :
  replays h1 rest1 -> replays h2 (u2 :: rest2) -> vfine Q1 h1 rest1 -> vfine Q2 h2 (u2 :: rest2) -> wave2 h1 h2 = Some (h1', h2', o) ->
  Forall from o /\ replays h1' rest1 /\ replays h2' rest2 /\ vfine Q1 h1' rest1 /\ vfine Q2 h2' rest2.
Proof.
  intros P1 P2 F1 F2. unfold wave2. destruct (vh_meet h2) as [m'|]; [|discriminate]. rewrite (replays_edit _ _ P2). cbn [hd_error].
  destruct (replays_step _ _ _ P2) as (h2a & E1 & Eb & _ & P2a). rewrite E1. intros E; inversion E; subst; clear E.
  pose proof (advance_fine Q1 h1 m' rest1 F1) as F1'. destruct F2 as [Hf Hb]. inversion Hf; subst.
  split; [|split; [apply replays_advance; auto|split; [auto|split; [auto|]]]].
  - unfold emit2. rewrite Forall_map. destruct F1' as [_ Hb1]. eapply Forall_impl; [|exact Hb1]. intros u Hu; cbn [fst snd]; auto.
  - split; auto. rewrite Eb. apply Forall_app; auto.
Qed.
Lemma wave_items : forall fuel (h1 : ValueHistory V1 T R1) (h2 : ValueHistory V2 T R2) rest1 rest2 calls,
  replays h1 rest1 -> replays h2 rest2 -> vfine Q1 h1 rest1 -> vfine Q2 h2 rest2 -> wave fuel h1 h2 = Some calls -> Forall from calls.
Proof.
  induction fuel as [|fuel IH]; intros h1 h2 rest1 rest2 calls P1 P2 F1 F2 E; cbn [wave] in E; rewrite (replays_time _ _ P1), (replays_time _ _ P2) in E;
    destruct rest1 as [|u1 rest1], rest2 as [|u2 rest2]; cbn [hd_error option_map] in E; try discriminate; try (inversion E; subst; constructor).
  - destruct (wave2 h1 h2) as [[[h1' h2'] o]|] eqn:W; [|discriminate]. destruct (wave fuel h1' h2') as [r|] eqn:Er; [|discriminate]. inversion E; subst.
    destruct (wave2_items _ _ _ _ _ _ _ _ P1 P2 F1 F2 W) as (Ho & X1 & X2 & F1' & F2'). apply Forall_app; split; auto. eapply IH; [exact X1|exact X2|auto|auto|exact Er].
  - destruct (wave1 h1 h2) as [[[h1' h2'] o]|] eqn:W; [|discriminate]. destruct (wave fuel h1' h2') as [r|] eqn:Er; [|discriminate]. inversion E; subst.
    destruct (wave1_items _ _ _ _ _ _ _ _ P1 P2 F1 F2 W) as (Ho & X1 & X2 & F1' & F2'). apply Forall_app; split; auto. eapply IH; [exact X1|exact X2|auto|auto|exact Er].
  - destruct (ltb _ _).
    + destruct (wave1 h1 h2) as [[[h1' h2'] o]|] eqn:W; [|discriminate]. destruct (wave fuel h1' h2') as [r|] eqn:Er; [|discriminate]. inversion E; subst.
      destruct (wave1_items _ _ _ _ _ _ _ _ P1 P2 F1 F2 W) as (Ho & X1 & X2 & F1' & F2'). apply Forall_app; split; auto. eapply IH; [exact X1|exact X2|auto|auto|exact Er].
    + destruct (wave2 h1 h2) as [[[h1' h2'] o]|] eqn:W; [|discriminate]. destruct (wave fuel h1' h2') as [r|] eqn:Er; [|discriminate]. inversion E; subst.
      destruct (wave2_items _ _ _ _ _ _ _ _ P1 P2 F1 F2 W) as (Ho & X1 & X2 & F1' & F2'). apply Forall_app; split; auto. eapply IH; [exact X1|exact X2|auto|auto|exact Er].
Qed.
End WaveItems.

(** ** The matches *)
Section Matches.
Context {T R0 R1 RO H I : Type} {OH : Ord H} {OI : Ord I} {TT : Time T} {D0 : Diff R0} {D1 : Diff R1} {DO : Diff RO} {MU : Multiply R0 R1 RO}.
Notation br0 := (bridge H I T R0).
Notation br1 := (bridge H I T R1).
Notation hsh := (fun u => fst (fst (fst u))).
(** the matches of two bridges: the join by hash, keeping the identifiers *)
Definition ids (h : H) (i j : I) : list ((H * I) * (H * I)) := [((h, i), (h, j))].
Notation hjoin p0 p1 := (join_updates (MU:=MU) ids p0 p1).
Notation mch := (jmatch (H:=H) (I:=I) (T:=T) (RO:=RO)).

Definition known (p0 : br0) (p1 : br1) (x : mch) : Prop :=
  In (fst (fst (fst x))) (map (fun u => fst (fst u)) p0) /\ In (snd (fst (fst x))) (map (fun u => fst (fst u)) p1).

Lemma hjoin_run kh (r0 : br0) (r1 : br1) : Forall (fun u => hsh u = kh) r0 -> Forall (fun u => hsh u = kh) r1 ->
  hjoin r0 r1 = flat_map (fun a => map (fun b => ((kh, snd (fst (fst a))), (kh, snd (fst (fst b))), join (snd (fst a)) (snd (fst b)), dmul (snd a) (snd b))) r1) r0.
Proof.
  intros F0 F1. unfold join_updates. apply flat_map_ext_in. intros [[[h i] t] r] Ha. rewrite Forall_forall in F0. specialize (F0 _ Ha). cbn [fst snd] in *. subst h.
  clear Ha. induction r1 as [|[[[h j] t'] r'] r1 IH]; auto. inversion F1; subst. cbn [fst snd] in *. cbn [flat_map map join_pair ids]. rewrite IH by auto.
  rewrite eqb_refl. reflexivity.
Qed.

Lemma join_key_ok m kh (r0 : br0) (r1 : br1) : Forall (fun u => hsh u = kh) r0 -> Forall (fun u => hsh u = kh) r1 ->
  exists ms, join_key kh r0 r1 = Some ms /\ Forall (known r0 r1) ms /\
    (Forall (fun u => tle m (snd (fst u)) = true) r0 \/ Forall (fun u => tle m (snd (fst u)) = true) r1 -> Forall (fun x : mch => tle m (snd (fst x)) = true) ms) /\
    same_weights (A:=(H*I)*(H*I)*T) ms (hjoin r0 r1).
Proof.
  intros F0 F1. unfold join_key. destruct (_ || _).
  - eexists. split; [reflexivity|]. split; [|split].
    + apply Forall_forall. intros x Hx. apply in_flat_map in Hx as (a & Ha & Hx). apply in_map_iff in Hx as (b & <- & Hb). rewrite Forall_forall in F0, F1.
      specialize (F0 _ Ha). specialize (F1 _ Hb). split; cbn [fst snd]; apply in_map_iff; [exists a|exists b]; split; auto; [destruct a as [[[? ?] ?] ?]|destruct b as [[[? ?] ?] ?]]; cbn [fst snd] in *; congruence.
    + intros HL. apply Forall_forall. intros x Hx. apply in_flat_map in Hx as (a & Ha & Hx). apply in_map_iff in Hx as (b & <- & Hb). cbn [fst snd]. destruct HL as [HL|HL]; rewrite Forall_forall in HL.
      * eapply tle_trans; [apply HL; exact Ha|apply join_ub_l].
      * eapply tle_trans; [apply HL; exact Hb|apply join_ub_r].
    + rewrite (hjoin_run kh) by auto. apply same_weights_refl.
  - set (e0 := map (fun a : H * I * T * R0 => (snd (fst (fst a)), snd (fst a), snd a)) r0). set (e1 := map (fun a : H * I * T * R1 => (snd (fst (fst a)), snd (fst a), snd a)) r1).
    destruct (c22_bilinear_wave_is_cross_product (MU:=MU) e0 e1 None None) as (h0 & h1 & out & E0 & E1 & Ew & W). rewrite E0, E1, Ew. eexists. split; [reflexivity|].
    unfold bilinear_wave in Ew. destruct (wave _ h0 h1) as [calls|] eqn:Ec; [|discriminate]. injection Ew as <-.
    split; [|split].
    + destruct (load_iter_replays (fun i => In i (map (fun a => snd (fst (fst a))) r0)) (fun _ => True) e0 h0) as (rest0 & P0 & B0 & G0); auto.
      { unfold e0. rewrite Forall_map. apply Forall_forall. intros a Ha. cbn [fst snd]. split; auto. apply in_map_iff. exists a; auto. }
      destruct (load_iter_replays (fun i => In i (map (fun a => snd (fst (fst a))) r1)) (fun _ => True) e1 h1) as (rest1 & P1 & B1 & G1); auto.
      { unfold e1. rewrite Forall_map. apply Forall_forall. intros a Ha. cbn [fst snd]. split; auto. apply in_map_iff. exists a; auto. }
      assert (HI : Forall (fun c : I * I * T * R0 * R1 => In (fst (fst (fst (fst c)))) (map (fun a => snd (fst (fst a))) r0) /\ In (snd (fst (fst (fst c)))) (map (fun a => snd (fst (fst a))) r1)) calls).
      { refine (wave_items (fun i => In i (map (fun a => snd (fst (fst a))) r0)) (fun i => In i (map (fun a => snd (fst (fst a))) r1)) _ _ _ _ _ _ P0 P1 _ _ Ec).
        - split; [eapply Forall_impl; [|exact G0]; cbn beta; tauto|rewrite B0; constructor].
        - split; [eapply Forall_impl; [|exact G1]; cbn beta; tauto|rewrite B1; constructor]. }
      rewrite !Forall_map. eapply Forall_impl; [|exact HI]. intros [[[[i j] t] x] y] [H0 H1]. cbn [fst snd] in *. apply in_map_iff in H0 as (a & <- & Ha). apply in_map_iff in H1 as (b & <- & Hb).
      rewrite Forall_forall in F0, F1. specialize (F0 _ Ha). specialize (F1 _ Hb). split; cbn [fst snd]; apply in_map_iff; [exists a|exists b]; split; auto; [destruct a as [[[? ?] ?] ?]|destruct b as [[[? ?] ?] ?]]; cbn [fst snd] in *; congruence.
    + intros HL.
      assert (G : Forall (fun c : I * I * T * R0 * R1 => tle m (snd (fst (fst c))) = true) calls).
      { destruct HL as [HL|HL].
        - destruct (load_iter_replays (fun i => True) (fun t => tle m t = true) e0 h0) as (rest0 & P0 & B0 & G0); auto.
          { unfold e0. rewrite Forall_map. eapply Forall_impl; [|exact HL]. cbn; auto. }
          destruct (load_iter_replays (fun i => True) (fun _ => True) e1 h1) as (rest1 & P1 & B1 & G1); auto.
          { unfold e1. rewrite Forall_map. apply Forall_forall. cbn; auto. }
          refine (wave_late m _ _ _ _ _ _ P0 P1 _ Ec). left. split; [eapply Forall_impl; [|exact G0]; cbn beta; tauto|rewrite B0; constructor].
        - destruct (load_iter_replays (fun i => True) (fun _ => True) e0 h0) as (rest0 & P0 & B0 & G0); auto.
          { unfold e0. rewrite Forall_map. apply Forall_forall. cbn; auto. }
          destruct (load_iter_replays (fun i => True) (fun t => tle m t = true) e1 h1) as (rest1 & P1 & B1 & G1); auto.
          { unfold e1. rewrite Forall_map. eapply Forall_impl; [|exact HL]. cbn; auto. }
          refine (wave_late m _ _ _ _ _ _ P0 P1 _ Ec). right. split; [eapply Forall_impl; [|exact G1]; cbn beta; tauto|rewrite B1; constructor]. }
      rewrite !Forall_map. eapply Forall_impl; [|exact G]. intros [[[[i j] t] x] y] Hc. exact Hc.
    + rewrite (hjoin_run kh) by auto.
      pose proof (map_same_weights (A:=I*I*T) (B:=(H*I)*(H*I)*T) (fun y : I * I * T => ((kh, fst (fst y)), (kh, snd (fst y)), snd y)) _ _ W) as W'.
      cbv beta in W'. intros x. specialize (W' x).
      replace (map _ (map _ calls)) with (map (fun x0 : I * I * T * RO => (kh, fst (fst (fst x0)), (kh, snd (fst (fst x0))), snd (fst x0), snd x0)) (map (fun '(v1, v2, t, r1, r2) => (v1, v2, t, dmul r1 r2)) calls))
        by (apply map_ext; intros [[[i j] t] d]; reflexivity).
      rewrite W'. f_equal. unfold products, e0, e1. clear. induction r0 as [|[[[h i] t] r] r0 IH]; auto. cbn [map flat_map]. rewrite map_app, IH. f_equal.
      rewrite !map_map. apply map_ext. intros [[[h' j] t'] r']. reflexivity.
Qed.

(** ** The merge of the bridges *)
Context {B0 B1 X S : Type}.
Variable backend : JoinBackend B0 B1 T R0 R1 RO X H I S.
Variable chunk : nat.
Notation push := (push_matches backend chunk).

Lemma push_app inst (ms1 ms2 : list mch) : forall buf s out,
  push inst (ms1 ++ ms2) buf s out = let '(buf, s, out) := push inst ms1 buf s out in push inst ms2 buf s out.
Proof.
  induction ms1 as [|x ms1 IH]; intros buf s out; [reflexivity|]. cbn [app push_matches]. destruct (_ <=? _); [|apply IH].
  destruct (pj_flush _ _ _ _ _) as [s1 out1]. apply IH.
Qed.

Definition byhash {R} (p : bridge H I T R) : Prop := StronglySorted (fun a b => le (hsh a) (hsh b)) p.
Lemma consolidated_byhash {R} {DR : Diff R} (p : bridge H I T R) : consolidated (A:=H*I*T) p -> byhash p.
Proof.
  induction p as [|u p IH]; intros HC; [constructor|]. apply consolidated_cons_inv in HC as (HC & _ & HF). constructor; [apply IH; auto|].
  eapply Forall_impl; [|exact HF]. intros v Hv. apply lt_pair in Hv as [Hv|[E _]]; [|rewrite E; apply le_refl].
  apply lt_pair in Hv as [Hv|[E _]]; [apply lt_le, Hv|rewrite E; apply le_refl].
Qed.
Lemma run_of_ok {R} kh : forall (p : bridge H I T R), byhash p -> Forall (fun u => le kh (hsh u)) p ->
  let '(r, rest) := run_of kh p in p = r ++ rest /\ Forall (fun u => hsh u = kh) r /\ byhash rest /\ Forall (fun u => lt kh (hsh u)) rest.
Proof.
  induction p as [|u p IH]; intros HS HF; cbn [run_of]; [repeat split; constructor|]. inversion HS as [|? ? HS' HA]; subst. inversion HF as [|? ? Hu HF']; subst. destruct (eqb_spec (hsh u) kh) as [E|N].
  - specialize (IH HS' HF'). destruct (run_of kh p) as [r rest]. destruct IH as (-> & F1 & S1 & F2). repeat split; auto.
  - assert (L : lt kh (hsh u)) by (apply le_lteq in Hu as [Hu|Hu]; [exact Hu|congruence]). repeat split; auto. constructor; auto.
    eapply Forall_impl; [|exact HA]. intros v Hv. cbv beta in *. apply le_lteq in Hv as [Hv|Hv]; [eapply lt_trans; eauto|rewrite <- Hv; exact L].
Qed.
Lemma hjoin_apart (p0 : br0) (p1 : br1) : (forall a b, In a p0 -> In b p1 -> hsh a <> hsh b) -> hjoin p0 p1 = [].
Proof.
  intros HN. unfold join_updates. rewrite <- (flat_map_nil (A:=H*I*T*R0) p0). apply flat_map_ext_in. intros a Ha.
  rewrite <- (flat_map_nil (A:=H*I*T*R1) p1). apply flat_map_ext_in. intros b Hb. specialize (HN _ _ Ha Hb).
  destruct a as [[[h i] t] r], b as [[[h' j] t'] r']. cbn [fst snd join_pair] in *. destruct (eqb_spec h h'); [contradiction|reflexivity].
Qed.

Lemma known_mono (p0 p0' : br0) (p1 p1' : br1) x : incl p0 p0' -> incl p1 p1' -> known p0 p1 x -> known p0' p1' x.
Proof.
  intros I0 I1 [K0 K1]. split; [apply in_map_iff in K0 as (u & <- & Hu)|apply in_map_iff in K1 as (u & <- & Hu)]; apply in_map_iff; exists u; auto.
Qed.

Lemma pj_merge_ok m inst : forall fuel (p0 : br0) (p1 : br1), length p0 + length p1 <= fuel -> byhash p0 -> byhash p1 ->
  exists ms, (forall buf s out, pj_merge backend chunk fuel inst p0 p1 buf s out = Some (push inst ms buf s out)) /\ Forall (known p0 p1) ms /\
    (Forall (fun u => tle m (snd (fst u)) = true) p0 \/ Forall (fun u => tle m (snd (fst u)) = true) p1 -> Forall (fun x : mch => tle m (snd (fst x)) = true) ms) /\
    same_weights (A:=(H*I)*(H*I)*T) ms (hjoin p0 p1).
Proof.
  induction fuel as [|fuel IH]; intros p0 p1 HL S0 S1; destruct p0 as [|a p0]; destruct p1 as [|b p1]; try (cbn [length] in HL; lia);
    try (exists []; split; [reflexivity|]; split; [constructor|]; split; [constructor|]; rewrite ?join_updates_nil_r; apply same_weights_refl).
  cbn [length] in HL. inversion S0 as [|? ? S0' A0]; subst. inversion S1 as [|? ? S1' A1]; subst. cbn [pj_merge].
  destruct (ltb (hsh a) (hsh b)) eqn:Lab; [|destruct (ltb (hsh b) (hsh a)) eqn:Lba].
  - assert (L : lt (hsh a) (hsh b)) by (apply ltb_lt; exact Lab). destruct (IH p0 (b :: p1)) as (ms & E & Kn & Lt & W); auto; [cbn [length]; lia|]. exists ms. split; [exact E|]. split; [|split].
    + eapply Forall_impl; [|exact Kn]. intros x. apply known_mono; [apply incl_tl, incl_refl|apply incl_refl].
    + intros [HF|HF]; apply Lt; [left; inversion HF; auto|right; auto].
    + rewrite join_updates_cons_l, (hjoin_apart [a]); [exact W|]. intros a' b' [<-|[]] Hb EH. rewrite Forall_forall in A1.
      assert (LL : le (hsh b) (hsh b')) by (destruct Hb as [<-|Hb]; [apply le_refl|apply A1; exact Hb]). cbv beta in *; rewrite <- EH in LL. exact (lt_irrefl _ (lt_le_trans _ _ _ L LL)).
  - assert (L : lt (hsh b) (hsh a)) by (apply ltb_lt; exact Lba). destruct (IH (a :: p0) p1) as (ms & E & Kn & Lt & W); auto; [cbn [length]; lia|]. exists ms. split; [exact E|]. split; [|split].
    + eapply Forall_impl; [|exact Kn]. intros x. apply known_mono; [apply incl_refl|apply incl_tl, incl_refl].
    + intros [HF|HF]; apply Lt; [left; auto|right; inversion HF; auto].
    + change (b :: p1) with ([b] ++ p1). eapply same_weights_trans; [|apply same_weights_sym, join_updates_app_r]. rewrite (hjoin_apart _ [b]); [exact W|]. intros a' b' Ha [<-|[]] EH. rewrite Forall_forall in A0.
      assert (LL : le (hsh a) (hsh a')) by (destruct Ha as [<-|Ha]; [apply le_refl|apply A0; exact Ha]). cbv beta in *; rewrite EH in LL. exact (lt_irrefl _ (lt_le_trans _ _ _ L LL)).
  - assert (EH : hsh b = hsh a). { apply ltb_ge in Lab. apply ltb_ge in Lba. apply le_antisym; auto. }
    set (kh := hsh a) in *.
    assert (Ga : Forall (fun u => le kh (hsh u)) (a :: p0)) by (constructor; [apply le_refl|exact A0]).
    assert (Gb : Forall (fun u => le kh (hsh u)) (b :: p1)) by (rewrite <- EH; constructor; [apply le_refl|exact A1]).
    pose proof (run_of_ok kh _ S0 Ga) as Q0. pose proof (run_of_ok kh _ S1 Gb) as Q1.
    assert (N0 : length (snd (run_of kh (a :: p0))) <= length p0).
    { cbn [run_of]. replace (eqb _ _) with true by (symmetry; apply eqb_eq; reflexivity). clear. induction p0 as [|u p0 IH]; [cbn; lia|]. cbn [run_of]. destruct (eqb _ _); [|cbn; lia]. destruct (run_of kh p0); cbn in *; lia. }
    destruct (run_of kh (a :: p0)) as [r0 rest0], (run_of kh (b :: p1)) as [r1 rest1]. destruct Q0 as (E0 & F0 & S0r & L0), Q1 as (E1 & F1 & S1r & L1). cbn [snd] in N0.
    destruct (join_key_ok m kh r0 r1 F0 F1) as (ms1 & EK & K1 & T1 & W1). rewrite EK.
    assert (N1 : length rest1 <= length (b :: p1)) by (rewrite E1, app_length; lia). cbn [length] in N1.
    destruct (IH rest0 rest1) as (ms2 & E2 & K2 & T2 & W2); auto; [lia|].
    exists (ms1 ++ ms2). rewrite E0, E1. split; [|split; [|split]].
    + intros buf s out. rewrite push_app. destruct (push inst ms1 buf s out) as [[buf1 s1] out1]. apply E2.
    + apply Forall_app; split; (eapply Forall_impl; [|eassumption]); intros x; apply known_mono; intros u Hu; apply in_or_app; auto.
    + intros HF. apply Forall_app; split; [apply T1|apply T2]; (destruct HF as [HF|HF]; apply Forall_app in HF as [? ?]; auto).
    + rewrite join_updates_app_l.
      assert (Z : forall a b, In a r0 -> In b rest1 -> hsh a <> hsh b).
      { intros x y Hx Hy Ex. rewrite Forall_forall in F0, L1. specialize (F0 _ Hx). specialize (L1 _ Hy). cbv beta in *. rewrite <- Ex, F0 in L1. exact (lt_irrefl _ L1). }
      assert (Z' : forall a b, In a rest0 -> In b r1 -> hsh a <> hsh b).
      { intros x y Hx Hy Ex. rewrite Forall_forall in L0, F1. specialize (L0 _ Hx). specialize (F1 _ Hy). cbv beta in *. rewrite Ex, F1 in L0. exact (lt_irrefl _ L0). }
      apply same_weights_app.
      * eapply same_weights_trans; [exact W1|]. eapply same_weights_trans; [|apply same_weights_sym, join_updates_app_r]. rewrite (hjoin_apart r0 rest1 Z), app_nil_r. apply same_weights_refl.
      * eapply same_weights_trans; [exact W2|]. eapply same_weights_trans; [|apply same_weights_sym, join_updates_app_r]. rewrite (hjoin_apart rest0 r1 Z'). apply same_weights_refl.
Qed.
Lemma keys_in {R} (p : bridge H I T R) h : In h (bridge_keys p) <-> In h (hashes_of p).
Proof. apply dedup_in. Qed.
Lemma keys_sorted {R} (p : bridge H I T R) : byhash p -> strictly_sorted (bridge_keys p).
Proof.
  intros HS. unfold bridge_keys, dedup. destruct p as [|u p]; [constructor|]. cbn [map]. apply dedup_go_sorted. change (StronglySorted le (map (fun r => hsh r) (u :: p))).
  unfold byhash in HS. clear - HS. revert HS. generalize (u :: p). intros l HS. induction HS as [|v l HS IH HF]; cbn [map]; constructor; auto. rewrite Forall_map. exact HF.
Qed.
End Matches.

(** ** The chunks, and the whole *)
Section Contract.
Context {B1 M1 B2 M2 K V1 V2 D T R1 R2 R3 H I S : Type} {OK : Ord K} {OV1 : Ord V1} {OV2 : Ord V2} {OD : Ord D} {OH : Ord H} {OI : Ord I} {TT : Time T}
  {D1 : Diff R1} {D2 : Diff R2} {D3 : Diff R3} {MU : Multiply R1 R2 R3}.
Variable ops1 : BatchOps B1 M1 T. Variable contents1 : B1 -> list (K * V1 * T * R1). Variable laws1 : BatchLaws (D:=K*V1) ops1 contents1.
Variable ops2 : BatchOps B2 M2 T. Variable contents2 : B2 -> list (K * V2 * T * R2). Variable laws2 : BatchLaws (D:=K*V2) ops2 contents2.
Variable backend : JoinBackend B1 B2 T R1 R2 R3 (D * T * R3) H I S.
Variable result : K -> V1 -> V2 -> list D.
Variable hash : K -> H.
Variable chunk : nat.
Notation mch := (jmatch (H:=H) (I:=I) (T:=T) (RO:=R3)).
Notation late m := (Forall (fun u => tle m (snd (fst u)) = true)).
Notation hjoin p0 p1 := (join_updates (MU:=MU) (ids (H:=H) (I:=I)) p0 p1).

Section Cross.
Variable inst : JoinInstance B1 B2 T. Variable meaning1 : H * I -> K * V1. Variable meaning2 : H * I -> K * V2.
Variable p1 : bridge H I T R1. Variable p2 : bridge H I T R2.
Notation sf := (stands_for (OK:=OK) result meaning1 meaning2).
Variable inv : S -> Prop.
Hypothesis Hinv : forall s ms s' c, inv s -> Forall (known p1 p2) ms ->
    jb_cross backend inst (map (fun x => fst (fst (fst x))) ms) (map (fun x => snd (fst (fst x))) ms) (map (fun x => snd (fst x)) ms) (map snd ms) s = (s', c) ->
    inv s' /\ same_weights (A:=D*T) c (flat_map sf ms) /\ Forall (fun u => In (snd (fst u)) (map (fun x => snd (fst x)) ms)) c.
Variable m : T.

Lemma flush_ok buf s (out : list (list (D*T*R3))) s' out' : inv s -> Forall (known p1 p2) buf -> Forall (fun x : mch => tle m (snd (fst x)) = true) buf ->
  pj_flush backend inst buf s out = (s', out') ->
  inv s' /\ exists c, out' = out ++ [c] /\ late m c /\ same_weights (A:=D*T) c (flat_map sf buf).
Proof.
  intros HI HK HL. unfold pj_flush. destruct (jb_cross _ _ _ _ _ _ _) as [s1 c] eqn:E. intros E'; injection E' as <- <-.
  destruct (Hinv _ _ _ _ HI HK E) as (I' & W & HT). split; auto. exists c. split; auto. split; auto. eapply Forall_impl; [|exact HT].
  intros u Hu. apply in_map_iff in Hu as (x & E1 & Hx). rewrite Forall_forall in HL. rewrite <- E1. apply (HL x Hx).
Qed.
Lemma push_ok : forall ms buf s (out : list (list (D*T*R3))) buf' s' out', inv s -> Forall (known p1 p2) (buf ++ ms) -> Forall (fun x : mch => tle m (snd (fst x)) = true) (buf ++ ms) ->
  push_matches backend chunk inst ms buf s out = (buf', s', out') ->
  inv s' /\ Forall (known p1 p2) buf' /\ Forall (fun x : mch => tle m (snd (fst x)) = true) buf' /\
  exists cs, out' = out ++ cs /\ Forall (late m) cs /\ same_weights (A:=D*T) (concat cs ++ flat_map sf buf') (flat_map sf (buf ++ ms)).
Proof.
  induction ms as [|x ms IH]; intros buf s out buf' s' out' HI HK HL E; cbn [push_matches] in E.
  - injection E as <- <- <-. rewrite app_nil_r in *. split; auto. split; auto. split; auto. exists []. rewrite app_nil_r. split; auto. split; [constructor|]. apply same_weights_refl.
  - assert (EQ : buf ++ x :: ms = (buf ++ [x]) ++ ms) by (rewrite <- app_assoc; reflexivity). rewrite EQ in HK, HL |- *.
    destruct (_ <=? _).
    + destruct (pj_flush _ _ _ _ _) as [s1 out1] eqn:Ef. apply Forall_app in HK as [HK1 HK2]. apply Forall_app in HL as [HL1 HL2].
      destruct (flush_ok _ _ _ _ _ HI HK1 HL1 Ef) as (I1 & c & -> & Lc & Wc). destruct (IH [] s1 _ _ _ _ I1 HK2 HL2 E) as (I' & K' & L' & cs & -> & Lcs & W).
      split; auto. split; auto. split; auto. exists (c :: cs). split; [rewrite <- app_assoc; reflexivity|]. split; [constructor; auto|].
      cbn [concat]. rewrite <- app_assoc, flat_map_app. apply same_weights_app; auto.
    + apply (IH (buf ++ [x]) s out); auto.
Qed.

(** what the matches stand for, summed, is the join *)
Lemma sf_linear (ms ms' : list mch) : same_weights (A:=(H*I)*(H*I)*T) ms ms' -> same_weights (A:=D*T) (flat_map sf ms) (flat_map sf ms').
Proof.
  intros W.
  set (f := fun (a : (H*I)*(H*I)*T) (r : R3) => if eqb (fst (meaning1 (fst (fst a)))) (fst (meaning2 (snd (fst a)))) then
     map (fun e => (e, snd a, r)) (result (fst (meaning1 (fst (fst a)))) (snd (meaning1 (fst (fst a)))) (snd (meaning2 (snd (fst a))))) else @nil (D*T*R3)).
  assert (E : forall l : list mch, flat_map sf l = flat_map (fun x => f (fst x) (snd x)) l).
  { intros l. apply flat_map_ext. intros [[[l0 r0] t] d]. reflexivity. }
  rewrite !E. apply (flat_map_same_weights (A:=(H*I)*(H*I)*T) (B:=D*T)); auto; unfold f.
  - intros a b. destruct (eqb _ _); [|reflexivity]. induction (result _ _ _) as [|e l IHl]; [reflexivity|]. cbn [map]. rewrite weight_cons', IHl. cbn [fst snd]. destruct (eqb _ _); apply dplus_0_l.
  - intros a x y b. destruct (eqb _ _); [|symmetry; apply dplus_0_l]. induction (result _ _ _) as [|e l IHl]; [symmetry; apply dplus_0_l|].
    cbn [map]. rewrite !weight_cons', IHl. cbn [fst snd]. destruct (eqb _ _); [apply dplus_swap4|]. rewrite !dplus_0_l; auto.
Qed.
Definition decoded {V R} (meaning : H * I -> K * V) (p : bridge H I T R) : list (K * V * T * R) := map (fun u => (meaning (fst (fst u)), snd (fst u), snd u)) p.
Lemma sf_hjoin : (forall u, In u p1 -> hash (fst (meaning1 (fst (fst u)))) = fst (fst (fst u))) -> (forall u, In u p2 -> hash (fst (meaning2 (fst (fst u)))) = fst (fst (fst u))) ->
  flat_map sf (hjoin p1 p2) = join_updates (MU:=MU) result (decoded meaning1 p1) (decoded meaning2 p2).
Proof.
  intros G1 G2. unfold join_updates, decoded. rewrite flat_map_map. clear Hinv. induction p1 as [|a p1' IH]; auto. cbn [flat_map]. etransitivity; [exact (flat_map_app sf _ _)|]. f_equal; [|apply IH; intros; apply G1; right; auto].
  specialize (G1 a (or_introl eq_refl)). clear IH. rewrite flat_map_map. induction p2 as [|b p2' IH]; auto. cbn [flat_map]. etransitivity; [exact (flat_map_app sf _ _)|]. f_equal; [|apply IH; intros; apply G2; right; auto].
  specialize (G2 b (or_introl eq_refl)). clear IH. destruct a as [[[h i] t] r], b as [[[h' j] t'] r']. cbn [fst snd] in *. unfold join_pair, ids.
  destruct (meaning1 (h, i)) as [k v] eqn:Em1, (meaning2 (h', j)) as [k' v'] eqn:Em2. cbn [fst snd] in *. destruct (eqb_spec h h') as [->|N].
  - cbn [map flat_map stands_for]. rewrite app_nil_r, Em1, Em2. reflexivity.
  - cbn [flat_map]. destruct (eqb_spec k k'); [subst; congruence|reflexivity].
Qed.
End Cross.

Lemma pj_bridged_ok inst meaning1 meaning2 p1 p2 s m : consolidated (A:=H*I*T) p1 -> consolidated (A:=H*I*T) p2 ->
  (forall u, In u p1 -> hash (fst (meaning1 (fst (fst u)))) = fst (fst (fst u))) -> (forall u, In u p2 -> hash (fst (meaning2 (fst (fst u)))) = fst (fst (fst u))) ->
  crosses backend result inst meaning1 meaning2 p1 p2 s -> late m p1 \/ late m p2 ->
  exists cs, pj_bridged backend chunk inst p1 p2 s = Some cs /\ Forall (late m) cs /\
    same_weights (A:=D*T) (concat cs) (join_updates (MU:=MU) result (decoded meaning1 p1) (decoded meaning2 p2)).
Proof.
  intros C1 C2 G1 G2 (inv & HI & Hinv) HL. unfold pj_bridged.
  destruct p1 as [|u1 p1']; [exists []; split; auto; split; [constructor|]; apply same_weights_refl|].
  destruct p2 as [|u2 p2']; [exists []; split; auto; split; [constructor|]; cbn [decoded map]; rewrite join_updates_nil_r; apply same_weights_refl|].
  set (p1 := u1 :: p1') in *. set (p2 := u2 :: p2') in *.
  destruct (pj_merge_ok backend chunk m inst (length p1 + length p2) p1 p2 (Nat.le_refl _) (consolidated_byhash _ C1) (consolidated_byhash _ C2)) as (ms & E & HK & HT & W).
  rewrite E. destruct (push_matches backend chunk inst ms [] s []) as [[buf s'] out] eqn:Ep.
  destruct (push_ok inst meaning1 meaning2 p1 p2 inv Hinv m ms [] s [] _ _ _ HI HK (HT HL) Ep) as (I' & K' & L' & cs & -> & Lcs & Wc). cbn [app] in *.
  assert (W' : same_weights (A:=D*T) (concat cs ++ flat_map (stands_for result meaning1 meaning2) buf) (join_updates (MU:=MU) result (decoded meaning1 p1) (decoded meaning2 p2))).
  { eapply same_weights_trans; [exact Wc|]. eapply same_weights_trans; [apply sf_linear, W|]. rewrite sf_hjoin by auto. apply same_weights_refl. }
  destruct buf as [|x buf]; [exists cs; split; auto; split; auto; cbn [flat_map] in W'; rewrite app_nil_r in W'; exact W'|].
  destruct (pj_flush _ _ _ _ _) as [s2 out2] eqn:Ef. destruct (flush_ok inst meaning1 meaning2 p1 p2 inv Hinv m _ _ _ _ _ I' K' L' Ef) as (_ & c & -> & Lc & Wf).
  exists (cs ++ [c]). split; auto. split; [apply Forall_app; auto|]. rewrite concat_app. cbn [concat]. rewrite app_nil_r.
  eapply same_weights_trans; [|exact W']. apply same_weights_app; [apply same_weights_refl|exact Wf].
Qed.

(** ** Loading: times advanced to [m], keys left out *)
Lemma loaded_late {V R} m (c c' : list (K * V * T * R)) : late m c -> Forall2 (loaded (E:=K*V) m) c c' -> c' = c.
Proof.
  intros HL HF. induction HF as [|[e r] [e' r'] c c' Hu HF IH]; auto. inversion HL as [|? ? Hm HL']; subst. f_equal; auto. destruct e as [e t], e' as [e' t'].
  destruct Hu as (E1 & E2 & L1 & L2). cbn [fst snd] in *. subst. f_equal. f_equal. apply tle_antisym; auto. eapply tle_trans; [exact L2|]. apply join_lub; auto. apply tle_refl.
Qed.
Lemma join_loaded_time (m t1 t2 t2' : T) : tle m t1 = true -> tle t2 t2' = true -> tle t2' (join t2 m) = true -> join t1 t2' = join t1 t2.
Proof.
  intros Hm L1 L2. apply tle_antisym; apply join_lub; try apply join_ub_l.
  - eapply tle_trans; [exact L2|]. apply join_lub; [apply join_ub_r|]. eapply tle_trans; [exact Hm|apply join_ub_l].
  - eapply tle_trans; [exact L1|apply join_ub_r].
Qed.
Lemma in_decoded {V R} {OV : Ord V} {DR : Diff R} m meaning (p : bridge H I T R) (c : list (K * V * T * R)) : bridge_shows hash m meaning p c -> late m c -> late m p.
Proof.
  intros (HC & _ & HJ & c' & HF & W) HL. rewrite (loaded_late m c c' HL HF) in W. apply Forall_forall. intros u Hu.
  assert (NZ : weight (A:=K*V*T) (map (fun u => (meaning (fst (fst u)), snd (fst u), snd u)) p) (meaning (fst (fst u)), snd (fst u)) <> dzero).
  { assert (E : weight (A:=K*V*T) (map (fun u => (meaning (fst (fst u)), snd (fst u), snd u)) p) (meaning (fst (fst u)), snd (fst u)) = weight (A:=H*I*T) p (fst u)).
    { assert (G : forall q, incl q p -> weight (A:=K*V*T) (map (fun u => (meaning (fst (fst u)), snd (fst u), snd u)) q) (meaning (fst (fst u)), snd (fst u)) = weight (A:=H*I*T) q (fst u)).
      { induction q as [|x q IHq]; intros Hq; [reflexivity|]. cbn [map]. rewrite !weight_cons', IHq by (intros y Hy; apply Hq; right; auto). f_equal. cbn [fst snd].
        destruct (eqb_spec (meaning (fst (fst x)), snd (fst x)) (meaning (fst (fst u)), snd (fst u))) as [E|N], (eqb_spec (fst x) (fst u)) as [E'|N']; auto.
        - exfalso. apply N'. injection E as E1 E2. assert (E3 := HJ x u (Hq x (or_introl eq_refl)) Hu E1). destruct (fst x), (fst u); cbn [fst snd] in *; congruence.
        - exfalso. apply N. rewrite E'. reflexivity. }
      apply G, incl_refl. }
    rewrite E. refine (proj1 (consolidated_in_weight p _ HC) _). apply in_map; auto. }
  rewrite (W _) in NZ. destruct (in_dec (eq_dec (A:=K*V*T)) (meaning (fst (fst u)), snd (fst u)) (map fst c)) as [Hin|Hn]; [|exfalso; apply NZ; exact (weight_notin c _ Hn)].
  apply in_map_iff in Hin as (x & E & Hx). rewrite Forall_forall in HL. specialize (HL x Hx). cbv beta in HL. rewrite E in HL. exact HL.
Qed.
Lemma restricted_r m keys (a : list (K * V1 * T * R1)) (c2 cr c2' : list (K * V2 * T * R2)) : late m a -> (forall u, In u a -> In (hash (fst (fst (fst u)))) keys) ->
  restricted hash keys c2 cr -> Forall2 (loaded (E:=K*V2) m) cr c2' -> join_updates (MU:=MU) result a c2' = join_updates (MU:=MU) result a c2.
Proof.
  intros HL HK (keep & Hk & ->) HF. unfold join_updates. apply flat_map_ext_in. intros u1 Hu. rewrite Forall_forall in HL. specialize (HL u1 Hu). specialize (HK u1 Hu).
  revert c2' HF. induction c2 as [|u2 c2 IH]; intros c2' HF; cbn [filter] in HF; [inversion HF; auto|]. cbn [flat_map].
  destruct (keep _) eqn:Ek.
  - inversion HF as [|? u2' ? c2'' Hu2 HF']; subst. cbn [flat_map]. rewrite (IH _ HF'). f_equal.
    destruct u1 as [[[k1 v1] t1] r1], u2 as [[[k2 v2] t2] r2], u2' as [[[k3 v3] t3] r3]. destruct Hu2 as (E1 & E2 & L1 & L2). cbn [fst snd join_pair] in *. injection E1 as -> ->. subst r3.
    rewrite (join_loaded_time m t1 t2 t3) by auto. reflexivity.
  - rewrite (IH _ HF). destruct u1 as [[[k1 v1] t1] r1], u2 as [[[k2 v2] t2] r2]. cbn [fst snd join_pair] in *. destruct (eqb_spec k1 k2) as [->|N]; auto. rewrite (Hk _ HK) in Ek. discriminate.
Qed.
Lemma restricted_l m keys (b : list (K * V2 * T * R2)) (c1 cr c1' : list (K * V1 * T * R1)) : late m b -> (forall u, In u b -> In (hash (fst (fst (fst u)))) keys) ->
  restricted hash keys c1 cr -> Forall2 (loaded (E:=K*V1) m) cr c1' -> join_updates (MU:=MU) result c1' b = join_updates (MU:=MU) result c1 b.
Proof.
  intros HL HK (keep & Hk & ->) HF. unfold join_updates. rewrite Forall_forall in HL.
  revert c1' HF. induction c1 as [|u1 c1 IH]; intros c1' HF; cbn [filter] in HF; [inversion HF; auto|]. cbn [flat_map].
  destruct (keep _) eqn:Ek.
  - inversion HF as [|? u1' ? c1'' Hu1 HF']; subst. cbn [flat_map]. rewrite (IH _ HF'). f_equal. apply flat_map_ext_in. intros u2 Hu2. specialize (HL _ Hu2).
    destruct u1 as [[[k1 v1] t1] r1], u2 as [[[k2 v2] t2] r2], u1' as [[[k3 v3] t3] r3]. destruct Hu1 as (E1 & E2 & L1 & L2). cbn [fst snd join_pair] in *. injection E1 as -> ->. subst r3.
    rewrite (join_comm t3 t2), (join_comm t1 t2), (join_loaded_time m t2 t1 t3) by auto. reflexivity.
  - rewrite (IH _ HF). rewrite <- (app_nil_l (flat_map _ c1)) at 1. f_equal. symmetry. rewrite <- (flat_map_nil (A:=K*V2*T*R2) b). apply flat_map_ext_in. intros u2 Hu2. specialize (HK _ Hu2).
    destruct u1 as [[[k1 v1] t1] r1], u2 as [[[k2 v2] t2] r2]. cbn [fst snd join_pair] in *. destruct (eqb_spec k1 k2) as [->|N]; auto. rewrite (Hk _ HK) in Ek. discriminate.
Qed.
Lemma decoded_keys {V R} {OV : Ord V} {DR : Diff R} m meaning (p : bridge H I T R) (c : list (K * V * T * R)) u : bridge_shows hash m meaning p c -> In u (decoded meaning p) -> In (hash (fst (fst (fst u)))) (bridge_keys p).
Proof.
  intros (_ & HH & _) Hu. apply in_map_iff in Hu as (x & <- & Hx). cbn [fst snd]. rewrite (HH x Hx). apply keys_in. apply in_map_iff. exists x; auto.
Qed.
Lemma decoded_late {V R} m meaning (p : bridge H I T R) : late m p -> late m (decoded (V:=V) meaning p).
Proof. intros HL. unfold decoded. rewrite Forall_map. exact HL. Qed.

(** ** The containers handed out *)
Lemma hands_out_containers s : forall cs : list (list (D * T * R3)), hands_out (proxy_tactic backend chunk s) cs (filter (fun c => match c with [] => false | _ => true end) cs).
Proof.
  induction cs as [|c cs IH]; cbn [filter].
  - eapply ho_end. reflexivity.
  - destruct c as [|x c].
    + inversion IH; subst; [eapply ho_end|eapply ho_more]; eauto.
    + eapply ho_more; [reflexivity|exact IH].
Qed.
Lemma concat_nonempty {A} (cs : list (list A)) : concat (filter (fun c => match c with [] => false | _ => true end) cs) = concat cs.
Proof. induction cs as [|[|x c] cs IH]; cbn; auto. rewrite IH; auto. Qed.

Lemma proxy_joins s : keeps_contract ops1 contents1 laws1 ops2 contents2 laws2 backend result hash ->
  joins ops1 contents1 laws1 ops2 contents2 laws2 (proxy_tactic backend chunk s) result.
Proof.
  intros HC bs1 bs2 fresh1 m O1 O2 HL.
  assert (G : exists cs, join_prep backend chunk bs1 bs2 fresh1 m s = Some cs /\ Forall (late m) cs /\
     same_weights (A:=D*T) (concat cs) (join_updates (MU:=MU) result (flat_map contents1 bs1) (flat_map contents2 bs2))).
  { destruct (HC bs1 bs2 m s O1 O2) as [HA HB]. unfold join_prep. destruct fresh1.
    - destruct (jb_present0 _ _ _ _) as [s1 p1] eqn:E1. destruct (HA _ _ eq_refl) as (meaning1 & P1 & HA'). clear HA HB.
      pose proof (in_decoded _ _ _ _ P1 HL) as L1. assert (P1' := P1). destruct P1' as (C1 & H1 & J1 & c1' & F1 & W1). rewrite (loaded_late _ _ _ HL F1) in W1.
      assert (D1' : forall b, same_weights (A:=D*T) (join_updates (MU:=MU) result (decoded meaning1 p1) b) (join_updates (MU:=MU) result (flat_map contents1 bs1) b)) by (intros b; apply join_updates_congr_l; exact W1).
      destruct p1 as [|u p1'] eqn:Ep; [exists []; split; auto; split; [constructor|]; exact (D1' _)|rewrite <- Ep in *]. 
      destruct (jb_present1 _ _ _ _) as [s2 p2] eqn:E2.
      destruct (HA' _ _ _ (keys_in p1) (keys_sorted p1 (consolidated_byhash _ C1)) E2) as (meaning2 & cr & HR & P2 & HX). destruct P2 as (C2 & H2 & J2 & c2' & F2 & W2).
      destruct (pj_bridged_ok _ _ _ _ _ _ m C1 C2 H1 H2 HX (or_introl L1)) as (cs & E & Lc & W). exists cs. split; auto. split; auto.
      eapply same_weights_trans; [exact W|]. eapply same_weights_trans; [apply join_updates_congr_r; exact W2|].
      rewrite (restricted_r m (bridge_keys p1) _ (flat_map contents2 bs2) cr c2'); auto; [apply decoded_late; exact L1|].
      intros x Hx. eapply decoded_keys; [exact P1|exact Hx].
    - destruct (jb_present1 _ _ _ _) as [s1 p2] eqn:E1. destruct (HB _ _ eq_refl) as (meaning2 & P2 & HB'). clear HA HB.
      pose proof (in_decoded _ _ _ _ P2 HL) as L2. assert (P2' := P2). destruct P2' as (C2 & H2 & J2 & c2' & F2 & W2). rewrite (loaded_late _ _ _ HL F2) in W2.
      assert (D2' : forall a, same_weights (A:=D*T) (join_updates (MU:=MU) result a (decoded meaning2 p2)) (join_updates (MU:=MU) result a (flat_map contents2 bs2))) by (intros a; apply join_updates_congr_r; exact W2).
      destruct p2 as [|u p2'] eqn:Ep.
      { exists []. split; auto. split; [constructor|]. specialize (D2' (flat_map contents1 bs1)). cbn [decoded map] in D2'. rewrite join_updates_nil_r in D2'. exact D2'. }
      rewrite <- Ep in *. destruct (jb_present0 _ _ _ _) as [s2 p1] eqn:E2.
      destruct (HB' _ _ _ (keys_in p2) (keys_sorted p2 (consolidated_byhash _ C2)) E2) as (meaning1 & cr & HR & P1 & HX). destruct P1 as (C1 & H1 & J1 & c1' & F1 & W1).
      destruct (pj_bridged_ok _ _ _ _ _ _ m C1 C2 H1 H2 HX (or_intror L2)) as (cs & E & Lc & W). exists cs. split; auto. split; auto.
      eapply same_weights_trans; [exact W|]. eapply same_weights_trans; [apply join_updates_congr_l; exact W1|].
      rewrite (restricted_l m (bridge_keys p2) _ (flat_map contents1 bs1) cr c1'); auto; [apply decoded_late; exact L2|].
      intros x Hx. eapply decoded_keys; [exact P2|exact Hx]. }
  destruct G as (cs & E & Lc & W). exists cs, (filter (fun c => match c with [] => false | _ => true end) cs). split; [exact E|]. split; [apply hands_out_containers|]. split; [|split].
  - apply Forall_forall. intros c Hc. apply filter_In in Hc as [_ Hc]. destruct c; [discriminate|discriminate].
  - apply Forall_forall. intros c Hc. apply filter_In in Hc as [Hc _]. rewrite Forall_forall in Lc. exact (Lc c Hc).
  - rewrite concat_nonempty. exact W.
Qed.
End Contract.
