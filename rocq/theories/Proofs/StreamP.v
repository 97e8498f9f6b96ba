(** An operator keeping track of an arranged input: what it has taken in is a prefix of what was inserted. *)
From Verif Require Export Base.Collections Spec.StreamSpec Proofs.LatticeP Proofs.DescriptionP Proofs.SpineP Proofs.BatchP.

Section StreamP.
Context {B M D T R : Type} {OD : Ord D} {TT : Time T} {DR : Diff R}.
Variable ops : BatchOps B M T.
Variable contents : B -> list (D * T * R).
Variable laws : BatchLaws ops contents.
Notation lower_of := (lower_of ops). Notation upper_of := (upper_of ops).
Notation proper := (proper ops contents laws). Notation tiles := (tiles ops).
Notation side := (side B M T).
Notation times_beyond := (times_beyond contents).
Notation sub A B := (forall t, beyond A t -> beyond B t).

Definition side_inv (sd : side) : Prop :=
  exists n, Sinv ops contents laws (sd_spine sd) (sd_hist sd) (sd_upper sd) (sd_logical sd) (sd_physical sd) n.

Lemma begins_inv e sd : begins ops contents laws e sd -> side_inv sd.
Proof.
  intros (l & H & E & _). destruct (history_runs ops contents laws e _ _ _ _ _ H) as (s & E' & HS). rewrite E in E'. inversion E'; subst. eexists; eauto.
Qed.
Lemma side_env_inv handle sd sd' : side_env ops contents laws handle sd sd' -> side_inv sd -> side_inv sd'.
Proof.
  intros HE (n & HS). destruct HE; simpl in *.
  - destruct (Sinv_insert ops contents laws _ _ _ _ _ _ b HS) as (s1 & E1 & HS1); auto. rewrite H3 in E1. inversion E1; subst. eexists; eauto.
  - destruct (Sinv_insert ops contents laws _ _ _ _ _ _ b HS) as (s1 & E1 & HS1); auto. rewrite H3 in E1. inversion E1; subst. eexists; eauto.
  - destruct (Sinv_step ops contents laws _ _ _ _ _ _ HS answer) as (s1 & E1 & HS1). rewrite H in E1. inversion E1; subst. eexists; eauto.
  - eexists. simpl. eapply Sinv_logical; eauto.
  - destruct (Sinv_physical ops contents laws _ _ _ _ _ _ P' HS H) as (s1 & E1 & HS1). rewrite H1 in E1. inversion E1; subst. eexists; eauto.
Qed.

(** the batches on the stream among those inserted *)
Inductive sent : list B -> list B -> Prop :=
| sn_nil : sent [] []
| sn_skip : forall r rest b, contents b = [] -> sent r rest -> sent r (b :: rest)
| sn_keep : forall r rest b, sent r rest -> sent (b :: r) (b :: rest).
Lemma sent_snoc_skip r rest b : contents b = [] -> sent r rest -> sent r (rest ++ [b]).
Proof. intros Hb. induction 1; simpl; [apply sn_skip; auto; apply sn_nil|apply sn_skip; auto|apply sn_keep; auto]. Qed.
Lemma sent_snoc_keep r rest b : sent r rest -> sent (r ++ [b]) (rest ++ [b]).
Proof. induction 1; simpl; [apply sn_keep, sn_nil|apply sn_skip; auto|apply sn_keep; auto]. Qed.
Lemma sent_head b r rest : sent (b :: r) rest -> exists es rest', rest = es ++ b :: rest' /\ Forall (fun x => contents x = []) es /\ sent r rest'.
Proof.
  remember (b :: r) as l eqn:E. intros H. revert b r E. induction H; intros b0 r0 E; [discriminate| |].
  - destruct (IHsent _ _ E) as (es & rest' & -> & F & S). exists (b :: es), rest'. auto.
  - inversion E; subst. exists [], rest. auto.
Qed.
Lemma sent_split : forall x y r, sent r (x ++ y) -> exists r1 r2, r = r1 ++ r2 /\ sent r1 x /\ sent r2 y.
Proof.
  induction x as [|b x IH]; simpl; intros y r H; [exists [], r; split; auto; split; auto; constructor|].
  inversion H as [|? ? ? Hc Hs|? ? ? Hs]; subst.
  - destruct (IH _ _ Hs) as (r1 & r2 & -> & S1 & S2). exists r1, r2. split; auto. split; auto. apply sn_skip; auto.
  - destruct (IH _ _ Hs) as (r1 & r2 & -> & S1 & S2). exists (b :: r1), r2. split; auto. split; auto. apply sn_keep; auto.
Qed.
Lemma sent_in r rest b : sent r rest -> In b r -> In b rest.
Proof. induction 1; simpl; intuition. Qed.

(** [accd]: the batches taken in; [rest]: the later ones *)
Record tracks (sd : side) (ack preload : list T) (accd rest : list B) : Prop := {
  tk_inv : side_inv sd;
  tk_hist : sd_hist sd = accd ++ rest;
  tk_mid : exists mid, tiles [tmin] accd mid /\ same_future ack mid;
  tk_ac : antichain ack;
  tk_pre : sub ack preload;
  tk_beyond : Forall (times_beyond (sd_front sd)) (sd_flight sd);
  tk_flight : exists olds e r, sd_flight sd = olds ++ e ++ r /\
    Forall (fun b => sub preload (upper_of b)) olds /\
    Forall (fun b => proper b /\ contents b = [] /\ sub ack (upper_of b) /\ sub (lower_of b) preload) e /\
    sent r rest
}.
(** the handle on the trace *)
Definition held (sd : side) (ack : list T) (handle : option (list T * list T)) : Prop :=
  allowed handle (sd_logical sd) (sd_physical sd) /\
  match handle with Some (HL, HP) => HL <> [] /\ sub ack HP | None => True end.

Lemma tk_proper sd ack preload accd rest : tracks sd ack preload accd rest -> Forall proper (accd ++ rest).
Proof. intros [(n & HS) E _ _ _ _ _]. rewrite <- E. apply HS. Qed.
Lemma tk_tiles sd ack preload accd rest : tracks sd ack preload accd rest -> exists mid, tiles [tmin] accd mid /\ tiles mid rest (sd_upper sd) /\ same_future ack mid.
Proof.
  intros [(n & HS) E (mid & HT & HM) _ _ _ _]. pose proof (si_tiles _ _ _ _ _ _ _ _ _ HS) as Ht. rewrite E in Ht.
  destruct (tiles_app _ _ _ _ _ Ht) as (mid' & T1 & T2). exists mid. split; auto. split; auto.
  exact (tiles_lo _ _ _ _ _ T2 (tiles_fun _ _ _ _ _ T1 HT)).
Qed.
Lemma nonempty_contents b : proper b -> nonempty ops b = true <-> contents b <> [].
Proof.
  intros Pb. unfold nonempty. rewrite (bl_len _ _ laws b (pr_ok _ _ _ _ Pb)). destruct (contents b); simpl; split; congruence.
Qed.
Lemma empty_contents b : proper b -> nonempty ops b = false <-> contents b = [].
Proof.
  intros Pb. unfold nonempty. rewrite (bl_len _ _ laws b (pr_ok _ _ _ _ Pb)). destruct (contents b); simpl; split; congruence.
Qed.
Lemma flat_map_empty bs : Forall (fun x => contents x = []) bs -> flat_map contents bs = [].
Proof. induction 1 as [|b bs Hb _ IH]; simpl; auto. rewrite Hb; auto. Qed.

(** the lower bounds of what is still to come *)
Lemma tiles_lowers h : forall lo up, tiles lo h up -> Forall proper h -> Forall (fun b => sub (lower_of b) lo) h.
Proof.
  induction h as [|b h IH]; intros lo up HT HP; constructor; inversion HT as [|? ? ? ? H1 H2]; inversion HP; subst.
  - intros t Ht. apply H1, Ht.
  - eapply Forall_impl; [|eapply IH; eauto]. cbv beta. intros x Hx t Ht. apply H1. eapply pr_le; eauto.
Qed.

Definition with_flight (sd : side) (q : list B) (F : list T) : side :=
  {| sd_spine := sd_spine sd; sd_hist := sd_hist sd; sd_upper := sd_upper sd; sd_logical := sd_logical sd;
     sd_physical := sd_physical sd; sd_flight := q; sd_front := F |}.

Lemma tracks_env handle sd sd' ack preload accd rest : side_env ops contents laws handle sd sd' -> tracks sd ack preload accd rest -> held sd ack handle ->
  exists rest', tracks sd' ack preload accd rest' /\ held sd' ack handle /\ sd_front sd' = sd_front sd.
Proof.
  intros HE TK HH. pose proof (side_env_inv _ _ _ HE (tk_inv _ _ _ _ _ TK)) as HI. destruct TK as [_ E Mid Ac Pre Tb (olds & e & r & Ef & F1 & F2 & S)].
  destruct HE; simpl in *.
  - exists (rest ++ [b]). split; [constructor; simpl; auto|split; auto].
    + rewrite E, app_assoc; auto.
    + apply Forall_app; auto.
    + exists olds, e, (r ++ [b]). rewrite Ef, <- !app_assoc. split; [auto|]. split; [auto|]. split; [auto|]. apply sent_snoc_keep; auto.
  - exists (rest ++ [b]). split; [constructor; simpl; auto|split; auto].
    + rewrite E, app_assoc; auto.
    + exists olds, e, r. split; [auto|]. split; [auto|]. split; [auto|]. apply sent_snoc_skip; auto.
  - exists rest. split; [constructor; simpl; eauto 10|split; auto].
  - exists rest. split; [constructor; simpl; eauto 10|split; auto]. destruct HH as [_ HH]. split; auto.
  - exists rest. split; [constructor; simpl; eauto 10|split; auto]. destruct HH as [_ HH]. split; auto.
Qed.

(** taking in the next batch *)
Lemma tk_recv sd ack preload accd rest b q : tracks sd ack preload accd rest -> sd_flight sd = b :: q ->
  (ac_le (upper_of b) preload || ac_le preload (lower_of b)) = true /\ (ac_le ack (lower_of b) || ac_le (upper_of b) ack) = true /\
  ((ac_le (upper_of b) preload = true /\ tracks (with_flight sd q (sd_front sd)) ack preload accd rest) \/
   (ac_le (upper_of b) preload = false /\ proper b /\ times_beyond (sd_front sd) b /\
     exists accd' rest' ack', (if ac_le ack (lower_of b) then if ac_le ack (upper_of b) then Some (upper_of b) else None else Some ack) = Some ack' /\
       tracks (with_flight sd q (sd_front sd)) ack' preload accd' rest' /\ sub ack' ack /\
       flat_map contents accd' = flat_map contents accd ++ contents b)).
Proof.
  intros TK Eq. pose proof (tk_proper _ _ _ _ _ TK) as Pr. destruct (tk_tiles _ _ _ _ _ TK) as (mid & T1 & T2 & HM).
  destruct TK as [HI E Mid Ac Pre Tb (olds & e & r & Ef & F1 & F2 & S)]. rewrite Eq in Ef, Tb. pose proof (Forall_inv Tb) as Tb1. pose proof (Forall_inv_tail Tb) as Tb2.
  assert (HI' : side_inv (with_flight sd q (sd_front sd))) by exact HI.
  assert (Hpast : forall lo u, sub lo preload -> ~ sub lo u -> ac_le u preload = false).
  { intros lo u H1 H2. apply Bool.not_true_is_false. intros H. rewrite ac_le_spec in H. apply H2. intros t Ht. apply H, H1, Ht. }
  destruct olds as [|o olds].
  - destruct e as [|x e].
    + destruct r as [|y r]; [discriminate|]. simpl in Ef. inversion Ef; subst y. clear Ef.
      destruct (sent_head _ _ _ S) as (es & rest' & -> & Fe & S').
      assert (Pb : proper b) by (rewrite Forall_forall in Pr; apply Pr; rewrite !in_app_iff; simpl; auto).
      destruct (tiles_app _ _ _ _ _ T2) as (mid2 & T3 & T4). inversion T4 as [|? ? ? ? L4 T5]; subst.
      apply Forall_app in Pr as [Pr1 Pr2]. apply Forall_app in Pr2 as [Pr2 Pr3]. inversion Pr3 as [|? ? _ Pr4]; subst.
      assert (La : sub (lower_of b) ack) by (intros t Ht; apply HM, (tiles_le _ _ _ _ _ _ T3 Pr2), L4, Ht).
      assert (Lp : sub (lower_of b) preload) by (intros t Ht; apply Pre, La, Ht).
      split; [apply orb_true_iff; right; apply ac_le_spec; exact Lp|]. split; [apply orb_true_iff; left; apply ac_le_spec; exact La|]. right.
      split; [eapply Hpast; [exact Lp|exact (proper_lt _ _ _ _ Pb)]|]. split; [auto|]. split; [auto|].
      exists (accd ++ es ++ [b]), rest', (upper_of b). rewrite (proj2 (ac_le_spec ack (lower_of b)) La).
      assert (Lu : sub (upper_of b) ack) by (intros t Ht; apply La; eapply pr_le; eauto).
      rewrite (proj2 (ac_le_spec ack (upper_of b)) Lu). split; [auto|]. split; [|split; [exact Lu|]].
      * constructor; simpl; auto.
        -- rewrite E, <- !app_assoc. auto.
        -- exists (upper_of b). split; [|apply same_future_refl]. rewrite app_assoc. eapply tiles_snoc; [|exact L4].
           eapply tiles_cat; eauto.
        -- apply Pb.
        -- exists [], [], r. simpl. repeat split; auto.
      * rewrite !flat_map_app, (flat_map_empty _ Fe). simpl. rewrite app_nil_r. auto.
    + simpl in Ef. inversion Ef; subst x q. clear Ef. inversion F2 as [|? ? (Pb & Cb & Ub & Lb) F2']; subst.
      split; [apply orb_true_iff; right; apply ac_le_spec; auto|]. split; [apply orb_true_iff; right; apply ac_le_spec; auto|]. right.
      split; [eapply Hpast; [exact Lb|exact (proper_lt _ _ _ _ Pb)]|]. split; [auto|]. split; [unfold times_beyond; rewrite Cb; constructor|].
      exists accd, rest, ack.
      assert (N : ac_le ack (lower_of b) = false).
      { apply Bool.not_true_is_false. intros H. rewrite ac_le_spec in H. apply (proper_lt _ _ _ _ Pb). intros t Ht. apply Ub, H, Ht. }
      rewrite N. split; [auto|]. split; [|split; [intros t; auto|rewrite Cb, app_nil_r; auto]].
      constructor; simpl; auto. exists [], e, r. simpl. auto.
  - simpl in Ef. inversion Ef; subst o q. clear Ef. inversion F1; subst.
    split; [apply orb_true_iff; left; apply ac_le_spec; auto|].
    split; [apply orb_true_iff; right; apply ac_le_spec; intros t Ht; apply H1, Pre, Ht|]. left.
    split; [apply ac_le_spec; auto|]. constructor; simpl; auto. exists olds, e, r. auto.
Qed.

(** passing over empty batches *)
Lemma adv_skip Bs : forall F, Forall (fun b => sub F (upper_of b) /\ antichain (lower_of b) /\ ~ sub (lower_of b) (upper_of b)) Bs -> antichain F ->
  fold_left (adv_step ops) Bs F = F.
Proof.
  induction Bs as [|b Bs IH]; intros F HB HF; simpl; auto. inversion HB as [|? ? (H1 & H2 & H3) HB']; subst.
  assert (E : adv_step ops F b = F).
  { unfold adv_step. destruct (ac_eqb (lower_of b) F) eqn:E; [|rewrite andb_false_r; auto]. exfalso.
    apply ac_eqb_spec in E; auto. apply H3. intros t Ht. apply H1, E, Ht. }
  rewrite E. auto.
Qed.
Lemma adv_stop h : forall lo up F, tiles lo h up -> Forall proper h -> antichain F -> ~ sub F lo -> fold_left (adv_step ops) h F = F.
Proof.
  induction h as [|b h IH]; intros lo up F HT HP HF HN; simpl; auto. inversion HT as [|? ? ? ? L1 T1]; inversion HP as [|? ? Pb HP']; subst.
  assert (E : adv_step ops F b = F).
  { unfold adv_step. destruct (ac_eqb (lower_of b) F) eqn:E; [|rewrite andb_false_r; auto]. exfalso.
    apply ac_eqb_spec in E; auto; [|apply Pb]. apply HN. intros t Ht. apply L1, E, Ht. }
  rewrite E. eapply IH; eauto. intros HS. apply HN. intros t Ht. apply L1, (pr_le _ _ _ _ Pb), HS, Ht.
Qed.
Lemma adv_pass h : forall lo up F, tiles lo h up -> Forall proper h -> antichain F -> same_future F lo ->
  exists es rest mid, h = es ++ rest /\ Forall (fun b => contents b = []) es /\ tiles lo es mid /\ same_future (fold_left (adv_step ops) h F) mid /\
    antichain (fold_left (adv_step ops) h F) /\ (forall b l, rest = b :: l -> contents b <> []).
Proof.
  induction h as [|b h IH]; intros lo up F HT HP HF HS; simpl.
  - exists [], [], lo. split; [auto|]. split; [constructor|]. split; [constructor; intros t; tauto|]. split; [auto|]. split; [auto|]. discriminate.
  - inversion HT as [|? ? ? ? L1 T1]; inversion HP as [|? ? Pb HP']; subst.
    destruct (nonempty ops b) eqn:En.
    + assert (E : adv_step ops F b = F) by (unfold adv_step; rewrite En; auto). rewrite E.
      rewrite (adv_stop _ _ _ F T1 HP' HF).
      2:{ intros H. apply (proper_lt _ _ _ _ Pb). intros t Ht. apply H, HS, L1, Ht. }
      exists [], (b :: h), lo. split; [auto|]. split; [constructor|]. split; [constructor; intros t; tauto|]. split; [auto|]. split; [auto|].
      intros b' l El. inversion El; subst. apply nonempty_contents; auto.
    + assert (E : adv_step ops F b = upper_of b).
      { unfold adv_step. rewrite En. simpl. rewrite (proj2 (ac_eqb_spec (lower_of b) F (pr_lower _ _ _ _ Pb) HF)); auto.
        intros t. split; intros Ht; [apply HS, L1, Ht|apply L1, HS, Ht]. }
      rewrite E. destruct (IH _ _ (upper_of b) T1 HP' (pr_upper _ _ _ _ Pb) (same_future_refl _)) as (es & rest & mid & -> & Fe & Te & Se & Ae & Ne).
      exists (b :: es), rest, mid. split; [auto|]. split; [constructor; auto; apply empty_contents; auto|]. split; [constructor; auto|auto].
Qed.

Lemma tk_pass_over sd ack preload accd rest HP : tracks sd ack preload accd rest -> sub HP (sd_physical sd) -> sub ack HP ->
  exists es rest', let ack' := advance_upper ops (sd_spine sd) ack in
    rest = es ++ rest' /\ Forall (fun b => contents b = []) es /\ tracks sd ack' preload (accd ++ es) rest' /\ sub ack' ack /\ (forall b l, rest' = b :: l -> contents b <> []).
Proof.
  intros TK HA HH.
  pose proof (tk_proper _ _ _ _ _ TK) as Pr. destruct (tk_tiles _ _ _ _ _ TK) as (mid & T1 & T2 & HM).
  destruct TK as [(n & HS) E Mid Ac Pre Tb (olds & e & r & Ef & F1 & F2 & S)].
  pose proof HS as HS0. destruct HS as [A1 A2 A3 A4 A5 A6 A7 (hm & Eh & B1 & B2) A9 A10 A11 A12].
  assert (Hack : sub ack (physical (sd_spine sd))) by (intros t Ht; apply A5, HA, HH, Ht).
  assert (HmF : Forall (fun b => sub ack (upper_of b)) hm).
  { eapply Forall_impl; [|exact B2]. cbv beta. intros b Hb t Ht. eapply ac_le_spec; [exact Hb|]. apply Hack, Ht. }
  assert (Hsplit : exists x, accd = hm ++ x /\ pending (sd_spine sd) = x ++ rest).
  { rewrite E in Eh. destruct (app_eq_app _ _ _ _ Eh) as (x & [[E1 E2]|[E1 E2]]); [eauto|].
    destruct x as [|y x]; [exists []; rewrite app_nil_r in *; simpl in *; auto|]. exfalso.
    assert (Fy : sub ack (upper_of y)). { rewrite Forall_forall in HmF. apply HmF. rewrite E1. apply in_or_app; right; left; auto. }
    assert (Py : proper y). { rewrite Forall_forall in Pr. apply Pr. rewrite E2, !in_app_iff. right. left. left; auto. }
    rewrite E2 in T2. inversion T2 as [|? ? ? ? S1 S2]; subst.
    apply (proper_lt _ _ _ _ Py). intros t Ht. apply Fy, HM, S1, Ht. }
  destruct Hsplit as (x & Ea & Ep).
  assert (HTm : exists midm, tiles [tmin] hm midm) by (subst accd; destruct (tiles_app _ _ _ _ _ T1) as (m' & ? & _); eauto).
  destruct HTm as (midm & HTm).
  assert (Prh : Forall proper hm) by (subst accd; apply Forall_app in Pr as [Pr _]; apply Forall_app in Pr as [Pr _]; auto).
  set (ack' := advance_upper ops (sd_spine sd) ack).
  assert (Eadv : ack' = fold_left (adv_step ops) rest ack).
  { unfold ack', advance_upper, map_batches. rewrite Ep, !fold_left_app. fold (seq (merging (sd_spine sd))).
    change (fun (up : list T) (b : B) => if negb (nonempty ops b) && ac_eqb (d_lower (b_desc ops b)) up then d_upper (b_desc ops b) else up) with (adv_step ops).
    rewrite (adv_skip (seq (merging (sd_spine sd)))); auto.
    - f_equal. apply adv_skip; auto.
      assert (Px : Forall proper x) by (subst accd; apply Forall_app in Pr as [Pr _]; apply Forall_app in Pr as [_ Pr]; auto).
      assert (Ux : Forall (fun b => sub ack (upper_of b)) x).
      { pose proof (tiles_uppers _ _ _ _ _ _ T1 (proj1 (proj1 (Forall_app _ _ _) Pr))) as U. subst accd. apply Forall_app in U as [_ U].
        eapply Forall_impl; [|exact U]. cbv beta. intros b Hb t Ht. apply Hb, HM, Ht. }
      clear - Px Ux. induction Px; inversion Ux; subst; constructor; auto. split; [auto|]. split; [apply H|exact (proper_lt _ _ _ _ H)].
    - pose proof (cov_strict _ _ _ _ _ _ _ _ B1 HTm Prh) as Hst. pose proof (cov_uppers _ _ _ _ _ _ (fun u => sub ack u) (fun u v Huv H t Ht => proj1 (Huv t) (H t Ht)) B1 HmF) as Hu.
      clear - Hst Hu. revert Hst Hu. generalize (seq (merging (sd_spine sd))) as l. induction 1; inversion 1; subst; constructor; auto.
      split; [auto|]. split; [apply H|apply H]. }
  destruct (adv_pass rest mid (sd_upper sd) ack T2 (proj2 (proj1 (Forall_app _ _ _) Pr)) Ac HM) as (es & rest' & mid' & Er & Fe & Te & Se & Ae & Ne).
  rewrite <- Eadv in Se, Ae. exists es, rest'. cbv zeta. fold ack'.
  apply Forall_app in Pr as [Pr1 Pr2]. rewrite Er in Pr2. apply Forall_app in Pr2 as [Pr2 Pr3].
  assert (Sb : sub ack' ack) by (intros t Ht; apply HM, (tiles_le _ _ _ _ _ _ Te Pr2), Se, Ht).
  split; [exact Er|]. split; [exact Fe|]. split; [|split; [exact Sb|exact Ne]].
  constructor; auto.
  - exists n; auto.
  - rewrite E, Er, app_assoc; auto.
  - exists mid'. split; auto. eapply tiles_cat; eauto.
  - rewrite Er in S. destruct (sent_split _ _ _ S) as (r1 & r2 & -> & S1 & S2). exists olds, (e ++ r1), r2. split; [rewrite Ef, <- !app_assoc; auto|].
    split; [auto|]. split; [|auto]. apply Forall_app. split.
    + eapply Forall_impl; [|exact F2]. cbv beta. intros b (G1 & G2 & G3 & G4). split; [exact G1|]. split; [exact G2|]. split; [|exact G4]. intros t Ht. apply G3, Sb, Ht.
    + apply Forall_forall. intros b Hb. pose proof (sent_in _ _ _ S1 Hb) as Hi. rewrite Forall_forall in Pr2, Fe.
      split; [auto|]. split; [auto|]. split.
      * pose proof (tiles_uppers _ _ _ _ _ _ Te (proj2 (Forall_forall _ _) Pr2)) as U. rewrite Forall_forall in U. intros t Ht. apply (U b Hi), Se, Ht.
      * pose proof (tiles_lowers _ _ _ Te (proj2 (Forall_forall _ _) Pr2)) as U. rewrite Forall_forall in U. intros t Ht. apply Pre, HM, (U b Hi), Ht.
Qed.

Lemma tk_pass sd ack preload accd rest handle : tracks sd ack preload accd rest -> held sd ack handle -> handle <> None ->
  exists accd' rest', let ack' := advance_upper ops (sd_spine sd) ack in
    tracks sd ack' preload accd' rest' /\ sub ack' ack /\ flat_map contents accd' = flat_map contents accd.
Proof.
  intros TK [HA HH] Hne. destruct handle as [[HL HP]|]; [|congruence].
  destruct (tk_pass_over _ _ _ _ _ HP TK (proj2 HA) (proj2 HH)) as (es & rest' & _ & Fe & TK' & Sb & _).
  exists (accd ++ es), rest'. cbv zeta. split; [exact TK'|]. split; [exact Sb|]. rewrite flat_map_app, (flat_map_empty _ Fe), app_nil_r; auto.
Qed.

(** reading the trace through the acknowledged frontier *)
Lemma tk_read sd ack preload accd rest HL HP : tracks sd ack preload accd rest -> held sd ack (Some (HL, HP)) ->
  exists bs, batches_through ops (sd_spine sd) ack = Some bs /\ Forall (bl_ok _ _ laws) bs /\
    same_beyond (sd_logical sd) (flat_map contents bs) (flat_map contents accd).
Proof.
  intros TK [[HA1 HA2] [HN HH]]. destruct TK as [(n & HS) E (mid & HT & HM) Ac Pre _ _]. rewrite E in HS.
  assert (HL' : sd_logical sd <> []).
  { intros EL. destruct HL as [|l HL]; [congruence|]. rewrite EL in HA1. apply (beyond_nil (T:=T) l). apply HA1. exists l. split; [left; auto|apply tle_refl]. }
  destruct (batches_through_ok ops contents laws _ _ _ _ _ _ _ ack mid HS HL' Ac) as (bs & E1 & E2 & E3); auto.
  exists bs. split; [auto|]. split; [|auto]. pose proof (cov_ok _ _ _ _ _ _ (Sinv_cov _ _ _ _ _ _ _ _ _ HS)) as HO.
  apply Forall_forall. intros b Hb. rewrite Forall_forall in HO. apply HO. eapply batches_through_in; eauto.
Qed.

(** start-up *)
Lemma tk_begin e sd HL HP : begins ops contents laws e sd ->
  allowed (Some (HL, HP)) (sd_logical sd) (sd_physical sd) -> HL <> [] -> sub (sd_upper sd) HP ->
  let ack := read_upper ops (sd_spine sd) in
  same_future ack (sd_upper sd) /\ tracks sd ack ack (sd_hist sd) [] /\ held sd ack (Some (HL, HP)) /\
  Forall (bl_ok _ _ laws) (map_batches (sd_spine sd)) /\
  same_beyond (sd_logical sd) (flat_map contents (map_batches (sd_spine sd))) (flat_map contents (sd_hist sd)).
Proof.
  intros HB HA HN HH. pose proof (begins_inv _ _ HB) as (n & HS). destruct HB as (l & _ & _ & Hf & Hb).
  pose proof (Sinv_cov _ _ _ _ _ _ _ _ _ HS) as HC. pose proof (si_tiles _ _ _ _ _ _ _ _ _ HS) as Ht.
  intros ack. assert (Hack : same_future ack (sd_upper sd)) by exact (read_upper_ok ops _ _ _ (cov_tiles _ _ _ _ _ _ HC _ _ Ht)).
  assert (Aack : antichain ack) by (apply (read_upper_antichain ops _ (cov_spans _ _ _ _ _ _ HC)), (ac_from_antichain [tmin])).
  split; [exact Hack|]. split; [|split; [split; [auto|split; [auto|intros t H; apply HH, Hack, H]]|split]].
  - constructor; auto.
    + exists n; auto.
    + rewrite app_nil_r; auto.
    + exists (sd_upper sd). auto.
    + exists (sd_flight sd), [], []. rewrite app_nil_r. repeat split; try constructor. eapply Forall_impl; [|exact Hf]. cbv beta. intros b H t H1. apply H, Hack, H1.
  - eapply cov_ok; eauto.
  - eapply same_beyond_mono; [|apply (cov_same _ _ _ _ _ _ HC)]. apply HS.
Qed.
End StreamP.
