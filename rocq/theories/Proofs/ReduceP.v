(** reduce as an operator. *)
From Verif Require Export Spec.ReduceSpec Proofs.RetireP Proofs.FollowP Proofs.OwnP.
From Verif Require Import Base.Order.

(** ** Tiles *)
Section Tiling.
Context {B M D T R : Type} {OD : Ord D} {TT : Time T} {DR : Diff R}.
Variable ops : BatchOps B M T. Variable contents : B -> list (D * T * R). Variable laws : BatchLaws ops contents.
Lemma tiles_within h : forall lo up, tiles ops lo h up -> Forall (proper ops contents laws) h -> Forall (within ops contents) h ->
  Forall (fun u => beyond lo (snd (fst u)) /\ ~ beyond up (snd (fst u))) (flat_map contents h).
Proof.
  induction h as [|b h IH]; intros lo up HT HP HW; [constructor|]. inversion HT as [|? ? ? ? H1 H2]; inversion HP as [|? ? Pb HP']; inversion HW as [|? ? Wb HW']; subst.
  cbn [flat_map]. apply Forall_app. split.
  - eapply Forall_impl; [|exact Wb]. cbv beta. intros u [Ha Hb]. split; [apply H1, Ha|]. intros H. apply Hb. eapply SpineP.tiles_le; eauto.
  - eapply Forall_impl; [|apply (IH _ _ H2 HP' HW')]. cbv beta. intros u [Ha Hb]. split; auto. apply H1, (pr_le _ _ _ _ Pb), Ha.
Qed.
Lemma tiles_uppers h : forall lo up b, tiles ops lo h up -> Forall (proper ops contents laws) h -> In b h -> forall t, beyond up t -> beyond (upper_of ops b) t.
Proof.
  induction h as [|b' h IH]; intros lo up b HT HP Hb t Ht; [destruct Hb|]. inversion HT as [|? ? ? ? H1 H2]; inversion HP as [|? ? Pb HP']; subst.
  destruct Hb as [<-|Hb]; [eapply SpineP.tiles_le; eauto|eapply IH; eauto].
Qed.
End Tiling.

Section Caps.
Context {T : Type} {TT : Time T}.
Lemma delayed_ok (caps : list T) t : beyond caps t -> delayed caps t = Some t.
Proof.
  intros (c & Hc & L). unfold delayed. destruct (find (fun c => tle c t) caps) eqn:E; auto. pose proof (find_none _ _ E c Hc) as H. cbv beta in H. congruence.
Qed.
Lemma delayed_all (caps l : list T) : Forall (beyond caps) l -> mapM (delayed caps) l = Some l.
Proof. induction 1 as [|t l Ht _ IH]; auto. cbn [mapM]. rewrite (delayed_ok _ _ Ht), IH. reflexivity. Qed.
Lemma insert_caps {X} (msgs : list (T * X)) : forall caps, antichain caps ->
  antichain (fold_left (fun caps m => ac_insert caps (fst m)) msgs caps) /\
  (forall t, beyond (fold_left (fun caps m => ac_insert caps (fst m)) msgs caps) t <-> beyond caps t \/ exists m, In m msgs /\ tle (fst m) t = true) /\
  (forall t, In t (fold_left (fun caps m => ac_insert caps (fst m)) msgs caps) -> In t caps \/ exists m, In m msgs /\ t = fst m).
Proof.
  induction msgs as [|m msgs IH]; intros caps HA; cbn [fold_left].
  - split; [auto|split; [|auto]]. intros t. split; auto. intros [H|(m & [] & _)]; auto.
  - destruct (IH (ac_insert caps (fst m)) (ac_insert_antichain _ _ HA)) as (I1 & I2 & I3). split; [auto|split].
    + intros t. rewrite I2, ac_insert_beyond. split.
      * intros [[H|H]|(m' & Hm & H)]; auto; right; [exists m|exists m']; split; auto; [left; auto|right; auto].
      * intros [H|(m' & [<-|Hm] & H)]; auto. right. eauto.
    + intros t Ht. destruct (I3 t Ht) as [H|(m' & Hm & ->)]; [|right; exists m'; split; auto; right; auto]. apply ac_insert_incl in H as [H| ->]; auto. right. exists m. split; auto. left; auto.
Qed.
End Caps.

(** ** The contract of a tactic *)
Section Contract.
Context {B1 M1 B2 M2 K V1 V2 T R1 R2 P : Type} {OK : Ord K} {OV1 : Ord V1} {OV2 : Ord V2} {TT : Time T} {D1 : Diff R1} {D2 : Diff R2} {A2 : Abelian R2}.
Variable F : K -> list (V1 * R1) -> V2 -> R2.
Variable bops1 : BatchOps B1 M1 T. Variable contents1 : B1 -> list (K * V1 * T * R1). Variable laws1 : BatchLaws (D:=K*V1) bops1 contents1.
Variable bops2 : BatchOps B2 M2 T. Variable contents2 : B2 -> list (K * V2 * T * R2). Variable laws2 : BatchLaws (D:=K*V2) bops2 contents2.
Definition right_at (accd : list B1) (log : list B2) k t : Prop :=
  forall v, FA (F k) (of_key k (flat_map contents1 accd)) t v = acc (of_key k (flat_map contents2 log)) v t.
(** [good] is what is true of the state of the tactic, and [pends] says for which keys and times it has work left. *)
Record retires (tactic : tactic_of B1 B2 P T) (good : P -> Prop) (pends : P -> K -> T -> Prop) : Prop := {
  rt_nil : forall k v, F k [] v = dzero;
  rt_round : forall source output input lower upper held p, good p ->
    Forall (bl_ok _ _ laws1) source -> Forall (bl_ok _ _ laws2) output -> Forall (bl_ok _ _ laws1) input ->
    antichain lower -> antichain upper -> antichain held -> (forall t, beyond upper t -> beyond lower t) -> Forall (beyond lower) held ->
    (forall k t, pends p k t -> beyond held t) ->
    Forall (fun u => beyond held (snd (fst u)) /\ ~ beyond upper (snd (fst u))) (flat_map contents1 input) ->
    (forall k t, linear_past t -> beyond lower t -> (forall x, pends p k x -> tle x t = false) -> right_at source output k t) ->
    exists produced frontier p' up, tactic source output input lower upper held p = Some (produced, frontier, p') /\ good p' /\
      tiles bops2 (ac_extend [] lower) (map snd produced) up /\ (forall t, beyond upper t -> beyond up t) /\ Forall (tile_ok bops2 contents2 laws2 held) produced /\
      antichain frontier /\ Forall (fun t => beyond held t /\ beyond upper t) frontier /\ (forall k t, pends p' k t -> beyond frontier t /\ beyond upper t) /\
      (forall k t, linear_past t -> beyond lower t -> (forall x, pends p' k x -> tle x t = false) -> right_at (source ++ input) (output ++ map snd produced) k t) /\
      (Forall (fun t => exists k, pends p' k t) frontier \/ frontier = held /\ p' = p /\ Forall (beyond upper) held)
}.
End Contract.

Section Operator.
Context {B1 M1 B2 M2 K V1 V2 T R1 R2 P : Type} {OK : Ord K} {OV1 : Ord V1} {OV2 : Ord V2} {TT : Time T} {D1 : Diff R1} {D2 : Diff R2} {A2 : Abelian R2}.
Variable F : K -> list (V1 * R1) -> V2 -> R2.
Variable bops1 : BatchOps B1 M1 T. Variable contents1 : B1 -> list (K * V1 * T * R1). Variable laws1 : BatchLaws (D:=K*V1) bops1 contents1.
Variable bops2 : BatchOps B2 M2 T. Variable contents2 : B2 -> list (K * V2 * T * R2). Variable laws2 : BatchLaws (D:=K*V2) bops2 contents2.
Variable tactic : tactic_of B1 B2 P T. Variable good : P -> Prop. Variable pends : P -> K -> T -> Prop.
Hypothesis Hrt : retires F bops1 contents1 laws1 bops2 contents2 laws2 tactic good pends.
Variable p0 : P. Hypothesis good0 : good p0. Hypothesis none0 : forall k t, ~ pends p0 k t.
Notation sub A B := (forall t, beyond A t -> beyond B t).
Notation w_inv := (w_inv bops2 contents2 laws2).
Notation rworld := (rworld B1 M1 B2 M2 T P). Notation right_at := (right_at F contents1 contents2).
Notation follows := (follows bops1 contents1 laws1). Local Notation holds := FollowP.holds.
Notation act := (r_activate bops1 bops2 tactic).

Definition entry_ok (x : B2 * option T) : Prop :=
  Forall (fun u => beyond (lower_of bops2 (fst x)) (snd (fst u)) /\ ~ beyond (upper_of bops2 (fst x)) (snd (fst u))) (contents2 (fst x)) /\
  match snd x with
  | Some c => beyond (lower_of bops2 (fst x)) c /\ Forall (fun u => tle c (snd (fst u)) = true) (contents2 (fst x))
  | None => contents2 (fst x) = []
  end.
Record rinv (rw : rworld) (accd rest : list B1) : Prop := {
  rv_follows : follows (rw_in rw) (rs_upper (rw_op rw)) accd rest;
  rv_holds : holds (rw_in rw) (rs_upper (rw_op rw)) (rs_handle (rw_op rw));
  rv_logical : sub (rs_upper (rw_op rw)) (fst (rs_handle (rw_op rw)));
  rv_within : Forall (within bops1 contents1) (sd_hist (rw_in rw));
  rv_front : sub (rs_upper (rw_op rw)) (sd_front (rw_in rw));
  rv_trace : w_inv (rw_trace rw) (map fst (rw_log rw));
  rv_writer : exists up, w_writer (rw_trace rw) = Some up /\ same_future up (rs_upper (rw_op rw));
  rv_own : own (rw_trace rw) (rs_upper (rw_op rw));
  rv_good : good (rs_pending (rw_op rw));
  rv_caps : antichain (rs_caps (rw_op rw)) /\ Forall (beyond (rs_upper (rw_op rw))) (rs_caps (rw_op rw));
  rv_pending : forall k p, pends (rs_pending (rw_op rw)) k p -> beyond (rs_caps (rw_op rw)) p /\ beyond (rs_upper (rw_op rw)) p;
  rv_log : Forall entry_ok (rw_log rw);
  rv_out : rw_out rw = sent_of (rw_log rw);
  rv_val : forall k t, linear_past t -> (forall p, pends (rs_pending (rw_op rw)) k p -> tle p t = false) -> right_at accd (map fst (rw_log rw)) k t
}.

(** every capability held is for work left *)
Definition needed (st : rstate P T) : Prop := Forall (fun c => exists k p, pends (rs_pending st) k p /\ tle c p = true) (rs_caps st).

Lemma ship_ok caps produced : forall w h up lo up', w_inv w h -> w_writer w = Some up -> same_future lo up -> tiles bops2 lo (map snd produced) up' ->
  Forall (fun tb => proper bops2 contents2 laws2 (snd tb) /\ since_of bops2 (snd tb) = [tmin] /\ beyond caps (fst tb)) produced ->
  exists w' up2, r_ship bops2 caps produced w = Some (w', map (fun tb => (snd tb, Some (fst tb))) produced) /\
    w_inv w' (h ++ map snd produced) /\ w_writer w' = Some up2 /\ same_future up' up2 /\ w_agents w' = w_agents w.
Proof.
  induction produced as [|[t b] produced IH]; intros w h up lo up' I Hw HS HT HP; cbn [r_ship map].
  - inversion HT as [? ? H0|]; subst. exists w, up. rewrite app_nil_r. split; [auto|]. split; [auto|]. split; [auto|]. split; [|auto]. intros x. rewrite <- (H0 x). apply HS.
  - cbn [map snd] in HT. inversion HT as [|? ? ? ? H1 H2]; inversion HP as [|? ? (Pb & Sb & Cb) HP']; subst. cbn [fst snd] in *.
    rewrite (delayed_ok _ _ Cb). cbn [w_step]. rewrite Hw.
    destruct (insert_ok bops2 contents2 laws2 w h up b (Some t) I Hw Pb) as (w1 & Ew & I1 & Hw1 & Ha1 & _).
    { intros x. rewrite <- (HS x). rewrite (H1 x). tauto. } { intros x. rewrite Sb. exists tmin. split; [left; auto|apply tmin_le]. }
    rewrite Ew. destruct (IH w1 (h ++ [b]) (upper_of bops2 b) (upper_of bops2 b) up' I1 Hw1 (same_future_refl _) H2 HP') as (w' & up2 & E2 & I2 & W2 & S2 & A2').
    rewrite E2. exists w', up2. split; [reflexivity|]. split; [rewrite <- app_assoc in I2; exact I2|]. split; [auto|split; [auto|congruence]].
Qed.

Lemma empty_key (bs : list B2) k v t : (forall b, In b bs -> contents2 b = []) -> acc (of_key k (flat_map contents2 bs)) v t = dzero.
Proof. intros H. rewrite (flat_map_empty contents2); [reflexivity|]. apply Forall_forall. exact H. Qed.

Lemma activate_ok (rw : rworld) accd rest msgs F' s' answer : rinv rw accd rest -> delivers contents1 (rw_in rw) msgs F' s' -> timely bops1 contents1 msgs s' ->
  exists st' w' outs bs accd' rest', act (sd_spine (rw_in rw)) msgs F' answer (rw_op rw) (rw_trace rw) = Some (st', w', outs, bs) /\
    rinv {| rw_in := s'; rw_trace := w'; rw_op := st'; rw_log := rw_log rw ++ bs; rw_out := rw_out rw ++ outs |} accd' rest' /\ (prompt bops1 msgs -> needed (rw_op rw) -> needed st').
Proof.
  intros I (q & Eq & Es & Hm & Hf & Hq) (Tm & Tq & Tu). destruct rw as [sd w [caps ack pend h] log out].
  destruct I as [IF IH IL IW IFr IT (wup & Iw & Iwu) IO IS [IC1 IC2] IP ILog IOut IV]. cbn [rw_in rw_trace rw_op rw_log rw_out rs_caps rs_upper rs_pending rs_handle] in *.
  destruct (fo_recv_all bops1 contents1 laws1 (flat_map snd msgs) sd ack accd rest q IF Eq) as (bs' & rest1 & Er & Pbs & Ec & Sb & Nb & Hin & HF1).
  set (bs := flat_map snd msgs) in *. unfold r_activate. cbn [rs_upper rs_caps rs_handle rs_pending]. cbv zeta. fold bs.
  change (fold_left (fun _ b => d_upper (b_desc bops1 b)) bs ack) with (last_upper bops1 ack bs).
  assert (HH1 : holds (with_flight sd q (sd_front sd)) (last_upper bops1 ack bs) h).
  { destruct IH as (H1 & H2 & H3). split; [exact H1|]. split; [|intros t Ht; apply H3, Sb, Ht]. intros Hn. apply H2. eapply sub_nonempty; eauto. }
  destruct (fo_pass bops1 contents1 laws1 _ _ _ _ h HF1 HH1) as (es & rest' & Er1 & Fe & HF2 & Sb2 & Hne).
  { cbn. subst s'. eapply Forall_impl; [|exact Tq]. intros b Hb; apply Hb. }
  cbn [sd_spine with_flight] in *. set (ack' := advance_upper bops1 (sd_spine sd) (last_upper bops1 ack bs)) in *.
  assert (Sack : sub ack' ack) by (intros t Ht; apply Sb, Sb2, Ht).
  apply (follows_front bops1 contents1 laws1) with (F := F') in HF2; [|exact Hq].
  change (with_flight (with_flight sd q (sd_front sd)) (sd_flight (with_flight sd q (sd_front sd))) F') with (with_flight sd q F') in HF2.
  assert (Es' : with_flight sd q F' = s') by (subst; reflexivity). rewrite Es' in HF2.
  assert (HaF : sub ack' F').
  { pose proof (follows_not_ahead bops1 contents1 laws1 s' ack' ((accd ++ bs') ++ es) rest' F' HF2 Hne) as Hn. subst s'. apply Hn; [exact Tu|]. eapply Forall_impl; [|exact Tq]. intros b Hb; apply Hb. }
  set (upper := antichain_join ack' F').
  assert (Up : forall t, beyond upper t <-> beyond ack' t) by (intros t; unfold upper; rewrite antichain_join_beyond; split; [tauto|auto]).
  assert (AU : antichain upper) by apply antichain_join_antichain.
  assert (HF3 : follows s' upper ((accd ++ bs') ++ es) rest').
  { eapply follows_same; [exact HF2|intros t; symmetry; apply Up|exact AU]. }
  assert (Sul : sub upper ack) by (intros t Ht; apply Sack, Up, Ht).
  set (lower := ac_extend [] ack).
  assert (Lo : forall t, beyond lower t <-> beyond ack t) by (exact (ac_from_beyond ack)).
  assert (AL : antichain lower) by (apply (ac_from_antichain ack)).
  set (caps1 := fold_left (fun caps m => ac_insert caps (fst m)) msgs caps).
  destruct (insert_caps msgs caps IC1) as (C1a & C1b & C1c). fold caps1 in C1a, C1b, C1c.
  (* what was received *)
  assert (Hseg : exists mid mid', tiles bops1 mid (bs' ++ es) mid' /\ same_future ack mid /\ same_future upper mid' /\ Forall (proper bops1 contents1 laws1) (bs' ++ es)).
  { destruct (tk_mid _ _ _ _ _ _ _ _ (fo_tracks _ _ _ _ _ _ _ IF)) as (mid & T1 & S1). destruct (tk_mid _ _ _ _ _ _ _ _ (fo_tracks _ _ _ _ _ _ _ HF3)) as (mid' & T2 & S2).
    rewrite <- app_assoc in T2. destruct (SpineP.tiles_app _ _ _ _ _ T2) as (mid2 & T3 & T4). apply (fun H => tiles_lo _ _ _ _ _ H (tiles_fun _ _ _ _ _ T3 T1)) in T4.
    exists mid, mid'. split; [auto|split; [auto|split; [auto|]]]. pose proof (tk_proper _ _ _ _ _ _ _ _ (fo_tracks _ _ _ _ _ _ _ HF3)) as Pr. apply Forall_app in Pr as [Pr _]. rewrite <- app_assoc in Pr. apply Forall_app in Pr. tauto. }
  destruct Hseg as (mid & mid' & Tseg & Smid & Smid' & Pseg).
  assert (Ehist : sd_hist sd = accd ++ (bs' ++ es) ++ rest').
  { rewrite (tk_hist _ _ _ _ _ _ _ _ (fo_tracks _ _ _ _ _ _ _ IF)), Er, Er1, <- !app_assoc. auto. }
  assert (Wseg : Forall (within bops1 contents1) (bs' ++ es)).
  { rewrite Ehist in IW. apply Forall_app in IW as [_ IW]. apply Forall_app in IW. tauto. }
  assert (Cseg : flat_map contents1 (bs' ++ es) = flat_map contents1 bs) by (rewrite flat_map_app, (flat_map_empty contents1 _ Fe), app_nil_r; exact Ec).
  assert (Useg : forall u, In u (flat_map contents1 bs) -> beyond ack (snd (fst u)) /\ ~ beyond upper (snd (fst u))).
  { pose proof (tiles_within bops1 contents1 laws1 _ _ _ Tseg Pseg Wseg) as H. rewrite Cseg in H. intros u Hu. destruct (proj1 (Forall_forall _ _) H u Hu) as [H1 H2]. split; [apply Smid, H1|]. intros H3. apply H2, Smid', H3. }
  assert (Hmt : forall m, In m msgs -> beyond ack (fst m)).
  { intros m Hmm. destruct (proj1 (Forall_forall _ _) Tm m Hmm) as [Hn Hb]. destruct (snd m) as [|b l] eqn:Em; [congruence|]. apply Smid.
    pose proof (tiles_lowers bops1 contents1 laws1 _ _ _ Tseg Pseg) as HL. apply (proj1 (Forall_forall _ _) HL b).
    - apply in_or_app. left. apply Hin. unfold bs. apply in_flat_map. exists m. rewrite Em. split; [auto|left; auto].
    - apply (Forall_inv Hb). }
  assert (C1l : Forall (beyond ack) caps1).
  { apply Forall_forall. intros t Ht. destruct (C1c t Ht) as [H|(m & Hmm & ->)]; [apply (proj1 (Forall_forall _ _) IC2 t H)|apply Hmt; auto]. }
  assert (Hcov : forall u, In u (flat_map contents1 bs) -> beyond caps1 (snd (fst u))).
  { intros u Hu. apply in_flat_map in Hu as (b & Hb & Hu). unfold bs in Hb. apply in_flat_map in Hb as (m & Hmm & Hb). apply C1b. right. exists m. split; auto.
    destruct (proj1 (Forall_forall _ _) Hm m Hmm) as [_ H]. pose proof (proj1 (Forall_forall _ _) H b Hb) as H2. apply (proj1 (Forall_forall _ _) H2 u Hu). }
  assert (Cacc : forall k, of_key k (flat_map contents1 ((accd ++ bs') ++ es)) = of_key k (flat_map contents1 accd) ++ of_key k (flat_map contents1 bs)).
  { intros k. rewrite <- app_assoc, flat_map_app, Cseg. apply of_key_app. }
  assert (Hpr : prompt bops1 msgs -> forall m, In m msgs -> ~ beyond upper (fst m)).
  { intros Hp m Hmm Hu. destruct (proj1 (Exists_exists _ _) (proj1 (Forall_forall _ _) Hp m Hmm)) as (b & Hb & Nbu). apply Nbu. apply (tiles_uppers bops1 contents1 laws1 _ _ _ b Tseg Pseg).
    - apply in_or_app. left. apply Hin. unfold bs. apply in_flat_map. exists m. auto.
    - apply Smid', Hu. }
  assert (Hmain : exists st2 w2 outs lg, (if negb (ac_eqb upper lower) then
       source <- batches_through bops1 (sd_spine sd) lower;
       bx <- w_box w;
       output <- batches_through bops2 (bx_trace bx) lower;
       ' (produced, new_frontier, pending) <- tactic source output bs lower upper (ac_from caps1) pend;
       ' (w, log) <- r_ship bops2 caps1 produced w;
       caps <- mapM (delayed caps1) new_frontier;
       ' (w, log1) <- w_step bops2 w (CSeal upper);
       ' (w, log2) <- w_step bops2 w (CSetLogical 0 upper);
       ' (w, log3) <- w_step bops2 w (CSetPhysical 0 upper);
       Some ({| rs_caps := caps; rs_upper := upper; rs_pending := pending;
                rs_handle := (antichain_join (fst h) upper, antichain_join (snd h) upper) |}, w, produced, log ++ log1 ++ log2 ++ log3)
     else Some ({| rs_caps := caps1; rs_upper := upper; rs_pending := pend; rs_handle := h |}, w, [], [])) = Some (st2, w2, outs, lg) /\
     rinv {| rw_in := s'; rw_trace := w2; rw_op := st2; rw_log := log ++ lg; rw_out := out ++ outs |} ((accd ++ bs') ++ es) rest' /\ (prompt bops1 msgs -> needed {| rs_caps := caps; rs_upper := ack; rs_pending := pend; rs_handle := h |} -> needed st2)).
  2:{ destruct Hmain as (st2 & w2 & outs & lg & E2 & I2 & Hnd). rewrite E2. destruct I2 as [J1 J2 J3 J4 J5 J6 J7 J8 J9 J10 J11 J12 J13 J14]. cbn [rw_in rw_trace rw_op rw_log rw_out] in *.
      destruct (exert_own bops2 contents2 laws2 w2 _ _ answer J6 J8) as (w3 & E3 & K1 & K2 & K3). rewrite E3, app_nil_r. exists st2, w3, outs, lg, ((accd ++ bs') ++ es), rest'. split; [reflexivity|]. split; [|exact Hnd].
      constructor; cbn [rw_in rw_trace rw_op rw_log rw_out]; auto. rewrite K2. exact J7. }
  assert (HWs : Forall (within bops1 contents1) (sd_hist s')) by (subst s'; exact IW).
  destruct (ac_eqb upper lower) eqn:Eul; cbn [negb].
  - apply ac_eqb_spec in Eul; auto. assert (Ua : forall t, beyond upper t <-> beyond ack t) by (intros t; rewrite (Eul t); apply Lo).
    assert (Hb0 : flat_map contents1 bs = []).
    { destruct (flat_map contents1 bs) as [|u us]; auto. exfalso. destruct (Useg u (or_introl eq_refl)) as [H1 H2]. apply H2, Ua, H1. }
    eexists _, _, _, _. split; [reflexivity|]. split.
    2:{ intros Hp. destruct msgs as [|m ms]; [auto|]. exfalso. apply (Hpr Hp m (or_introl eq_refl)). apply Ua, Hmt. left; auto. }
    constructor; cbn [rw_in rw_trace rw_op rw_log rw_out rs_caps rs_upper rs_pending rs_handle]; rewrite ?app_nil_r; auto.
    + destruct IH as (H1 & H2 & H3). split; [subst s'; exact H1|split; [|intros t Ht; apply H3, Ua, Ht]]. intros Hn. apply H2. eapply sub_nonempty; [|exact Hn]. apply Ua.
    + intros t Ht. subst s'. apply HaF, Up, Ht.
    + exists wup. split; auto. intros t. rewrite (Iwu t). symmetry. apply Ua.
    + destruct IO as (a & Ha & H2 & H3). exists a. split; [auto|split; intros t; [rewrite (H2 t)|rewrite (H3 t)]; symmetry; apply Ua].
    + split; auto. eapply Forall_impl; [|exact C1l]. intros t. apply Ua.
    + intros k p Hkp. destruct (IP k p Hkp) as [H1 H2]. split; [apply C1b; auto|apply Ua; auto].
    + intros k t Lt Hp v. rewrite <- (IV k t Lt Hp v), Cacc, Hb0. cbn. rewrite app_nil_r. auto.
  - assert (Nul : ~ same_future ack upper).
    { intros H. assert (ac_eqb upper lower = true); [|congruence]. apply ac_eqb_spec; auto. intros t. rewrite (Lo t). symmetry. apply H. }
    assert (Hack : ack <> []). { intros E0. apply Nul. intros t. split; [rewrite E0; intros H; destruct (beyond_nil _ H)|apply Sul]. }
    assert (Hlow : lower <> []) by (eapply sub_nonempty; [|exact Hack]; apply Lo).
    assert (HFl : follows sd lower accd rest) by (eapply follows_same; [exact IF|intros t; symmetry; apply Lo|exact AL]).
    assert (HHl : holds sd lower h) by (destruct IH as (H1 & H2 & H3); split; [auto|split; [auto|intros t Ht; apply H3, Lo, Ht]]).
    destruct h as [HL HP]. pose proof (fo_held sd lower (HL, HP) HHl Hlow) as Hheld.
    destruct (tk_read bops1 contents1 laws1 _ _ _ _ _ HL HP (fo_tracks _ _ _ _ _ _ _ HFl) Hheld) as (source & Etb & Otb & Stb). rewrite Etb.
    destruct IO as (a & Ha & HaL & HaP). destruct (own_box bops2 contents2 laws2 w _ a IT Ha) as (bx & Eb & [Bx1 Bx2 (n & Sv)] & Hlive). rewrite Eb.
    assert (HLb : forall t, beyond ack t -> beyond (ma_frontier (bx_logical bx)) t).
    { intros t Ht. apply (holds_frontier _ _ Bx1 t). exists (ag_logical a). split; [apply in_map; auto|apply HaL; auto]. }
    assert (HPb : forall t, beyond ack t -> beyond (ma_frontier (bx_physical bx)) t).
    { intros t Ht. apply (holds_frontier _ _ Bx2 t). exists (ag_physical a). split; [apply in_map; auto|apply HaP; auto]. }
    assert (Wup : w_upper w = wup) by (unfold w_upper; rewrite Iw; auto).
    destruct (batches_through_ok bops2 contents2 laws2 (bx_trace bx) (map fst log) [] (w_upper w) (ma_frontier (bx_logical bx)) (ma_frontier (bx_physical bx)) n lower (w_upper w)) as (output & Eo & So & _); auto.
    { rewrite app_nil_r. exact Sv. } { eapply sub_nonempty; [exact HLb|auto]. } { intros t Ht. apply HPb, Lo, Ht. } { apply (wi_tiles _ _ _ _ _ IT). } { intros t. rewrite Wup, (Lo t). symmetry. apply Iwu. }
    rewrite Eo. set (held := ac_from caps1).
    assert (Oo : Forall (bl_ok _ _ laws2) output).
    { pose proof (cov_ok _ _ _ _ _ _ (Sinv_cov _ _ _ _ _ _ _ _ _ Sv)) as HO. apply Forall_forall. intros b Hb. rewrite Forall_forall in HO. apply HO. eapply batches_through_in; eauto. }
    assert (Hheldb : forall t, beyond held t <-> beyond caps1 t) by (intros t; apply ac_from_beyond).
    assert (Hheldi : forall t, In t held -> In t caps1) by (intros t Ht; unfold held, ac_from in Ht; apply ac_extend_incl in Ht as [[]|Ht]; auto).
    destruct (rt_round _ _ _ _ _ _ _ _ _ _ Hrt source output bs lower upper held pend IS) as (produced & frontier & next & up & Ert & Q4 & Q1 & Q2 & Q3 & Q5 & Q6 & Q7 & Q9 & Q10); auto.
    { eapply Forall_impl; [|exact Pbs]. intros b Hb. apply Hb. }
    { apply ac_from_antichain. }
    { intros t Ht. apply Lo, Sul, Ht. }
    { apply Forall_forall. intros t Ht. apply Lo. apply (proj1 (Forall_forall _ _) C1l t). auto. }
    { intros k p Hkp. apply Hheldb, C1b. left. apply (IP k p Hkp). }
    { apply Forall_forall. intros u Hu. split; [apply Hheldb, Hcov, Hu|apply Useg, Hu]. }
    { intros k t Lt Bt Hp v. apply Lo in Bt.
      rewrite (FA_ext _ _ (of_key k (flat_map contents1 accd)) t t v); [|intros x; rewrite !acc_of_key; apply Stb; destruct IH as [[HA1 _] _]; apply HA1, IL, Bt].
      rewrite (IV k t Lt Hp v), !acc_of_key. symmetry. apply So. auto. }
    rewrite Ert.
    destruct (ship_ok caps1 produced w (map fst log) wup (ac_extend [] lower) up IT Iw) as (w1 & up2 & E1 & I1 & W1 & S1 & A1); auto.
    { intros t. rewrite (Iwu t), <- (Lo t). exact (ac_from_beyond lower t). }
    { eapply Forall_impl; [|exact Q3]. intros tb (H1 & H2 & H3 & _). split; [auto|split; [auto|]]. apply beyond_in. auto. }
    rewrite E1, (delayed_all caps1 frontier) by (eapply Forall_impl; [|exact Q6]; intros t [H _]; apply Hheldb, H).
    cbn [w_step]. rewrite W1.
    destruct (seal_ok bops2 contents2 laws2 w1 _ up2 upper I1 W1 AU) as (w2 & sealed & E2 & I2 & W2 & A2' & Hsealed & _). { intros t Ht. apply S1, Q2, Ht. }
    rewrite E2.
    assert (Ha2 : agent_at w2 0 = Some a) by (unfold agent_at in *; rewrite A2', A1; auto).
    destruct (set_logical_own bops2 contents2 laws2 w2 _ a upper I2 Ha2) as (w3 & E3 & I3 & W3 & A3). destruct (set_physical_own bops2 contents2 laws2 w3 _ _ upper I3 A3) as (w4 & E4 & I4 & W4 & A4).
    cbn [w_step] in E3, E4 |- *. rewrite E3, E4, !app_nil_r. eexists _, _, _, _. split; [reflexivity|]. split.
    2:{ intros Hp Hn0. destruct Q10 as [Q10|(Eh & -> & Q10)].
        - unfold needed. cbn [rs_caps rs_pending]. eapply Forall_impl; [|exact Q10]. intros c (k & Hk). exists k, c. split; [auto|apply tle_refl].
        - destruct msgs as [|m ms].
          + unfold needed in *. cbn [rs_caps rs_pending] in *. rewrite Forall_forall in *. intros c Hc. apply Hn0. rewrite Eh in Hc. apply Hheldi in Hc. exact Hc.
          + exfalso. apply (Hpr Hp m (or_introl eq_refl)). assert (Bm : beyond held (fst m)) by (apply Hheldb, C1b; right; exists m; split; [left; auto|apply tle_refl]).
            destruct Bm as (x & Hx & Lx). rewrite Forall_forall in Q10. eapply beyond_mono; [exact Lx|apply Q10, Hx]. }
    set (shipped := map (fun tb : T * B2 => (snd tb, Some (fst tb))) produced).
    assert (Esh : map fst shipped = map snd produced) by (unfold shipped; rewrite map_map; apply map_ext; auto).
    assert (Hse : forall b, In b (map fst sealed) -> contents2 b = []) by (intros b Hb; apply in_map_iff in Hb as (x & <- & Hx); apply (Hsealed x Hx)).
    constructor; cbn [rw_in rw_trace rw_op rw_log rw_out rs_caps rs_upper rs_pending rs_handle fst snd]; auto.
    + subst s'. apply (holds_advance sd ack upper (HL, HP) IH Sul); auto.
    + intros t Ht. apply antichain_join_beyond. split; auto.
    + intros t Ht. subst s'. apply HaF, Up, Ht.
    + rewrite !map_app, Esh, app_assoc. exact I4.
    + rewrite W4, W3, W2. destruct (ac_eqb up2 upper) eqn:Eup; [|exists upper; split; [auto|apply same_future_refl]]. exists up2. split; auto. apply ac_eqb_spec in Eup; auto.
      pose proof (wi_upper _ _ _ _ _ I1) as Hwu. unfold w_upper in Hwu. rewrite W1 in Hwu. exact Hwu.
    + eexists. split; [exact A4|]. cbn [ag_logical ag_physical]. split; intros t; rewrite antichain_join_beyond, ?(HaL t), ?(HaP t); split; [tauto| |tauto|]; intros H; split; auto.
    + split; auto. eapply Forall_impl; [|exact Q6]. intros t [_ H]. exact H.
    + apply Forall_app. split; auto. apply Forall_app. split.
      * unfold shipped. apply Forall_forall. intros x Hx. apply in_map_iff in Hx as (tb & <- & Htb). destruct (proj1 (Forall_forall _ _) Q3 tb Htb) as (H1 & H2 & H3 & H4 & H5). unfold entry_ok. cbn [fst snd].
        split; [eapply Forall_impl; [|exact H5]; cbv beta; intros u Hu; tauto|]. split; auto. eapply Forall_impl; [|exact H5]. cbv beta. intros u Hu; tauto.
      * apply Forall_forall. intros x Hx. destruct (Hsealed x Hx) as [Hc0 Hn0]. unfold entry_ok. rewrite Hn0, Hc0. split; auto.
    + rewrite !sent_app, IOut. f_equal.
      assert (Hn : sent_of sealed = []).
      { assert (Hn : forall x, In x sealed -> snd x = None) by (intros x Hx; apply (Hsealed x Hx)). clear - Hn. unfold sent_of. induction sealed as [|x l IHb]; auto. cbn [flat_map]. rewrite (Hn x (or_introl eq_refl)). cbn [app]. apply IHb. intros y Hy. apply Hn. right; auto. }
      rewrite Hn, app_nil_r. unfold shipped, sent_of. clear. induction produced as [|[t b] l IHb]; auto. cbn [map flat_map fst snd app]. f_equal. exact IHb.
    + intros k t Lt Hp v. rewrite !map_app, Esh, !flat_map_app, !of_key_app, !acc_app.
      rewrite (empty_key (map fst sealed) k v t Hse), dplus_0_r.
      destruct (beyond_dec ack t) as [Bt|Bt].
      * specialize (Q9 k t Lt (proj2 (Lo t) Bt) Hp v). rewrite !flat_map_app, !of_key_app, acc_app in Q9.
        rewrite (acc_of_key k (flat_map contents2 (map fst log))), <- (So (k, v) t (HLb t Bt)), <- acc_of_key, <- Q9.
        apply FA_ext. intros x. rewrite !acc_app, !acc_of_key. rewrite (flat_map_empty contents1 _ Fe), Ec. cbn. rewrite dplus_0_r. f_equal. symmetry. apply Stb. destruct IH as [[HA1 _] _]. apply HA1, IL, Bt.
      * rewrite <- (IV k t Lt).
        2:{ intros p Hp'. destruct (tle p t) eqn:E; auto. exfalso. apply Bt. apply (beyond_mono _ p); auto. apply (IP k p Hp'). }
        assert (Z : acc (of_key k (flat_map contents2 (map snd produced))) v t = dzero).
        { apply acc_none. intros u Hu. apply in_of_key in Hu. apply in_flat_map in Hu as (b & Hb & Hu). apply in_map_iff in Hb as (tb & <- & Htb).
          destruct (proj1 (Forall_forall _ _) Q3 tb Htb) as (_ & _ & H3 & _ & H5). destruct (proj1 (Forall_forall _ _) H5 _ Hu) as (L & _). cbn [fst snd] in L.
          destruct (tle (snd (fst u)) t) eqn:E; auto. exfalso. apply Bt. apply (beyond_mono _ (fst tb)); [exact (tle_trans _ _ _ L E)|exact (proj1 (Forall_forall _ _) C1l (fst tb) (Hheldi _ H3))]. }
        rewrite Z, dplus_0_r. apply FA_ext. intros x. rewrite !acc_app, !acc_of_key, (flat_map_empty contents1 _ Fe), Ec. cbn. rewrite dplus_0_r.
        replace (acc (flat_map contents1 bs) (k, x) t) with (dzero (R:=R1)); [rewrite dplus_0_r; auto|]. symmetry. apply acc_none. intros u Hu. destruct (tle (snd (fst u)) t) eqn:E; auto.
        exfalso. apply Bt. apply (beyond_mono _ (snd (fst u))); auto. apply (Useg u Hu).
Qed.

Notation rstarts := (rstarts bops1 contents1 laws1 bops2 p0). Notation rstep := (rstep bops1 contents1 laws1 bops2 tactic).
Notation rreaches := (rreaches bops1 contents1 laws1 bops2 tactic p0).
Lemma starts_ok e handle (rw : rworld) : rstarts e handle rw -> rinv rw [] [].
Proof.
  intros ((e' & HBg) & Eh & Ef & Hfr & HA & HL & HP & Et & Eop & El & Eo). destruct rw as [sd w st log out]. cbn [rw_in rw_trace rw_op rw_log rw_out] in *. subst st log out.
  unfold r_trace in Et. destruct (w_step bops2 (world_new (with_effort e)) (CClone 0)) as [[w' bs]|] eqn:Es; [|discriminate]. inversion Et; subst w'.
  destruct (fun H => reader_step bops2 contents2 laws2 (world_new (with_effort e)) [] (CClone 0) w bs (new_ok bops2 contents2 laws2 e) H Es) as (-> & I & Ew); [exact Logic.I|].
  assert (Ha : agent_at w 0 = agent_at (world_new (with_effort e)) 0) by (eapply (others_own bops2 _ (CClone 0)); [|split; exact Logic.I|exact Es]; discriminate).
  constructor; cbn [rw_in rw_trace rw_op rw_log rw_out r_start rs_caps rs_upper rs_pending rs_handle map]; auto.
  - apply follows_intro; rewrite ?Ef; auto.
    + eapply begins_inv; eauto.
    + exists [tmin]. split; [constructor|]; apply same_future_refl.
    + apply (ac_from_antichain [tmin]).
    + constructor.
  - split; [exact HA|]. split; [|auto]. intros _ E0. specialize (HL tmin). rewrite E0 in HL. destruct (beyond_nil _ HL).
  - rewrite Eh. constructor.
  - exists (ac_from [tmin]). split; [rewrite Ew; reflexivity|]. intros t. apply (ac_from_beyond [tmin] t).
  - eexists. split; [rewrite Ha; reflexivity|]. cbn [ag_logical ag_physical].
    assert (HH : forall t : T, beyond (ma_frontier (ma_update_iter [] (plus_one [tmin]))) t <-> beyond [tmin] t).
    { intros t. rewrite (holds_frontier _ [[tmin]]); [|intros x; reflexivity]. split; [intros (G & [<-|[]] & H); auto|intros H; exists [tmin]; split; [left; auto|auto]]. }
    split; exact HH.
  - split; constructor.
  - intros k p Hp. destruct (none0 k p Hp).
  - intros k t _ _ v. cbn. change (acc [] v t) with (dzero (R:=R2)). apply (rt_nil _ _ _ _ _ _ _ _ _ _ Hrt).
Qed.
Lemma step_inv rw rw' : (exists accd rest, rinv rw accd rest) -> rstep rw rw' -> exists accd rest, rinv rw' accd rest.
Proof.
  intros (accd & rest & I) HS. destruct HS as [s s' w st l o HE HW|s w st l o c w' bs Hc Es|s s' w st l o msgs F' answer st' w' outs bs HD HT E].
  - destruct I as [I1 I2 I3 I4 I5 I6 I7 I8 I9 I10 I11 I12 I13 I14]. cbn [rw_in rw_trace rw_op rw_log rw_out] in *.
    destruct (fo_env bops1 contents1 laws1 _ _ _ _ _ _ HE I1 I2) as (rest' & J1 & J2 & J3). exists accd, rest'. constructor; cbn [rw_in rw_trace rw_op rw_log rw_out]; auto. rewrite J3. auto.
  - exists accd, rest. destruct I as [I1 I2 I3 I4 I5 I6 (up & I7 & I7') (a & Ia & Ia') I9 I10 I11 I12 I13 I14]. cbn [rw_in rw_trace rw_op rw_log rw_out] in *.
    destruct (reader_step bops2 contents2 laws2 _ _ _ _ _ I6 (proj1 Hc) Es) as (_ & J1 & J2). constructor; cbn [rw_in rw_trace rw_op rw_log rw_out]; auto.
    + exists up. rewrite J2. auto.
    + exists a. split; auto. rewrite <- Ia. eapply others_own; [|exact Hc|exact Es]. destruct (own_box _ _ _ _ _ _ I6 Ia) as (bx & Eb & _). congruence.
  - destruct (activate_ok _ _ _ msgs F' s' answer I HD HT) as (st2 & w2 & o2 & bs2 & accd' & rest' & E2 & I2 & _). cbn [rw_in rw_trace rw_op rw_log rw_out] in *. rewrite E in E2. inversion E2; subst. eauto.
Qed.
Lemma rreaches_inv e handle rw : rreaches e handle rw -> exists accd rest, rinv rw accd rest.
Proof. induction 1 as [rw H|rw rw' _ IH HS]; [exists [], []; eapply starts_ok; eauto|eapply step_inv; eauto]. Qed.

Lemma reduce_ok e handle rw : rreaches e handle rw -> forall k t i, linear_past t -> ~ beyond (sd_front (rw_in rw)) t ->
  consolidated i -> (forall a, weight i a = acc (flat_map contents1 (sd_hist (rw_in rw))) (k, a) t) ->
  forall v, acc (flat_map contents2 (map fst (rw_log rw))) (k, v) t = F k i v.
Proof.
  intros HW k t i Lt Nt Ci Wi v. destruct (rreaches_inv _ _ _ HW) as (accd & rest & I).
  rewrite <- acc_of_key, <- (rv_val _ _ _ I k t Lt).
  - apply FA_ok; auto. intros a. rewrite Wi, acc_of_key. eapply complete_side; [|exact Nt]. apply (fo_tracks _ _ _ _ _ _ _ (rv_follows _ _ _ I)).
  - intros p Hp. destruct (tle p t) eqn:E; auto. exfalso. apply Nt, (rv_front _ _ _ I). apply (beyond_mono _ p); auto. apply (rv_pending _ _ _ I k p Hp).
Qed.
Lemma reduce_runs e handle rw msgs F' s' answer : rreaches e handle rw -> delivers contents1 (rw_in rw) msgs F' s' -> timely bops1 contents1 msgs s' ->
  exists rw', r_activate bops1 bops2 tactic (sd_spine (rw_in rw)) msgs F' answer (rw_op rw) (rw_trace rw) = Some rw'.
Proof.
  intros HW HD Hti. destruct (rreaches_inv _ _ _ HW) as (accd & rest & I). destruct (activate_ok _ _ _ msgs F' s' answer I HD Hti) as (st2 & w2 & o2 & bs2 & accd' & rest' & E2 & _). eauto.
Qed.
Lemma reduce_tiles e handle rw : rreaches e handle rw -> exists up, tiles bops2 [tmin] (map fst (rw_log rw)) up /\ w_writer (rw_trace rw) = Some up /\
  (forall t, beyond up t -> beyond (sd_front (rw_in rw)) t) /\ Forall entry_ok (rw_log rw) /\ rw_out rw = sent_of (rw_log rw).
Proof.
  intros HW. destruct (rreaches_inv _ _ _ HW) as (accd & rest & I). destruct (rv_writer _ _ _ I) as (up & Ew & Su). exists up.
  split; [|split; [auto|split; [|split; [apply I|apply I]]]].
  - pose proof (wi_tiles _ _ _ _ _ (rv_trace _ _ _ I)) as H. unfold w_upper in H. rewrite Ew in H. exact H.
  - intros t Ht. apply (rv_front _ _ _ I), Su, Ht.
Qed.
Lemma prompt_needed e handle rw : rprompt bops1 contents1 laws1 bops2 tactic p0 e handle rw -> rreaches e handle rw /\ needed (rw_op rw).
Proof.
  induction 1 as [rw H|rw rw' _ [IH1 IH2] HS E|rw s' msgs F' answer st' w' outs bs _ [IH1 IH2] HD Ht Hp E].
  - split; [apply rr_start, H|]. destruct H as (_ & _ & _ & _ & _ & _ & _ & _ & -> & _). constructor.
  - split; [eapply rr_step; eauto|]. rewrite E. auto.
  - destruct (rreaches_inv _ _ _ IH1) as (accd & rest & I). destruct (activate_ok _ _ _ msgs F' s' answer I HD Ht) as (st2 & w2 & o2 & bs2 & accd' & rest' & E2 & _ & Hn). rewrite E in E2. injection E2 as <- <- <- <-. split; [|auto].
    eapply rr_step; [exact IH1|]. destruct rw as [r1 r2 r3 r4 r5]. cbn [rw_in rw_trace rw_op rw_log rw_out] in *. eapply rw_activate; eauto.
Qed.
Lemma trace_starts e : exists w, r_trace bops2 e = Some w.
Proof.
  destruct (AgentP.step_ok bops2 contents2 laws2 (world_new (with_effort e)) [] (CClone 0) (new_ok bops2 contents2 laws2 e) Logic.I) as (w & bs & E & _). exists w. unfold r_trace. rewrite E. reflexivity.
Qed.
End Operator.

(** ** The tactic with cursors *)
Section Standard.
Context {B1 M1 C1 B2 M2 C2 K V1 V2 T R1 R2 : Type} {OK : Ord K} {OV1 : Ord V1} {OV2 : Ord V2} {TT : Time T} {D1 : Diff R1} {D2 : Diff R2} {A2 : Abelian R2}.
Variable logic : K -> list (V1 * R1) -> list (V2 * R2) -> list (V2 * R2).
Variable F : K -> list (V1 * R1) -> V2 -> R2.
Hypothesis HF : reduces logic F.
Variable bops1 : BatchOps B1 M1 T. Variable contents1 : B1 -> list (K * V1 * T * R1). Variable laws1 : BatchLaws (D:=K*V1) bops1 contents1.
Variable bops2 : BatchOps B2 M2 T. Variable contents2 : B2 -> list (K * V2 * T * R2). Variable laws2 : BatchLaws (D:=K*V2) bops2 contents2.
Variable cops1 : CursorOps B1 C1 K V1 T R1. Variable new1 : C1.
Variable cops2 : CursorOps B2 C2 K V2 T R2. Variable new2 : C2.
Hypothesis HR1 : readable bops1 contents1 laws1 cops1 new1.
Hypothesis HR2 : readable bops2 contents2 laws2 cops2 new2.
Variable build : list (list (K * V2 * T * R2)) -> Description T -> B2.
Hypothesis HB : builds (D:=K*V2) bops2 contents2 laws2 (fun chain => consolidated (A:=K*V2*T) (concat chain)) build.
Notation retire := (retire logic bops1 bops2 cops1 new1 cops2 new2 build).
Lemma retire_frontier source output input lower upper held pending produced frontier next : retire source output input lower upper held pending = Some (produced, frontier, next) ->
  frontier = ac_from (map snd next) \/ frontier = held /\ next = pending /\ Forall (beyond upper) held.
Proof.
  unfold ReduceM.retire. destruct (existsb _ held) eqn:E.
  - destruct (cursor_list cops1 new1 source); [|discriminate]. destruct (cursor_list cops2 new2 output); [|discriminate]. destruct (cursor_list cops1 new1 input); [|discriminate].
    destruct (retire_keys _ _ _ _ _ _ _ _ _ _ _ _ _ _ _ _) as [[nx pu]|]; [|discriminate]. destruct (tile_batches _ _ _ _ _ _) as [[pr ou]|]; [|discriminate]. destruct (negb _); [discriminate|]. intros H. injection H as <- <- <-. auto.
  - intros H. injection H as <- <- <-. right. split; [auto|]. split; [auto|]. apply Forall_forall. intros t Ht. apply ac_less_equal_spec. destruct (ac_less_equal upper t) eqn:El; auto.
    assert (existsb (fun t => negb (ac_less_equal upper t)) held = true); [|congruence]. apply existsb_exists. exists t. rewrite El. auto.
Qed.
Lemma retire_retires : retires F bops1 contents1 laws1 bops2 contents2 laws2 retire strictly_sorted (fun p k t => In (k, t) p).
Proof.
  destruct HF as [F_nil logic_ok]. split; [exact F_nil|].
  intros source output input lower upper held p G G1 G2 G3 G5 G6 G7 G8 G9 G10 G11 Hb.
  destruct (retire_ok logic F F_nil logic_ok bops1 contents1 laws1 bops2 contents2 laws2 cops1 new1 cops2 new2 HR1 HR2 build HB (fun _ t => linear_past t)) with
    (source := source) (output := output) (input := input) (lower := lower) (upper := upper) (held := held) (pending := p) as (produced & frontier & next & up & Ert & Q1 & Q2 & Q3 & Q4 & Q5 & Q6 & Q7 & Q8 & Q9); auto.
  - intros k r t L H x y Hx Hy. apply H; eapply tle_trans; eauto.
  - intros k t x y Ot Bx Lx Ly Lyx. destruct (Ot y x Ly Lx) as [H|H]; auto. apply tle_le in H. rewrite (le_antisym y x); auto. apply tle_refl.
  - exists produced, frontier, next, up. split; [exact Ert|]. do 8 (split; [assumption|]). destruct (retire_frontier _ _ _ _ _ _ _ _ _ _ Ert) as [->|H]; [left|right; exact H].
    apply Forall_forall. intros t Ht. unfold ac_from in Ht. apply ac_extend_incl in Ht. destruct Ht as [[]|Ht]. apply in_map_iff in Ht. destruct Ht as ([k t'] & <- & Ht). exists k. exact Ht.
Qed.
End Standard.

(** ** Logic *)
Section Logics.
Context {K V1 V2 R1 R2 : Type} {OK : Ord K} {OV1 : Ord V1} {OV2 : Ord V2} {D1 : Diff R1} {D2 : Diff R2} {A2 : Abelian R2}.
Lemma weight_neg (l : list (V2 * R2)) v : weight (map (fun xd => (fst xd, dneg (snd xd))) l) v = dneg (weight l v).
Proof.
  induction l as [|[x d] l IH]; cbn [map].
  - cbn. rewrite <- (dneg_l (dzero : R2)) at 1. apply dplus_0_r.
  - rewrite !weight_cons', IH. cbn [fst snd]. destruct (eqb x v).
    + apply (dplus_cancel_r (dplus d (weight l v))). rewrite dneg_l.
      rewrite (dplus_comm d (weight l v)), dplus_assoc, <- (dplus_assoc (dneg (weight l v)) (weight l v) d), dneg_l, dplus_0_l, dneg_l. auto.
    + rewrite !dplus_0_l. auto.
Qed.
Lemma abelian_reduces (f : K -> list (V1 * R1) -> list (V2 * R2)) :
  reduces (abelian_logic f) (fun k i v => if is_nil i then dzero else weight (f k i) v).
Proof.
  split; [reflexivity|]. intros k i o Ci Co _ v. unfold abelian_logic. rewrite consolidate_weight, weight_app, weight_neg.
  rewrite dplus_assoc, dneg_l, dplus_0_r. destruct i; reflexivity.
Qed.
End Logics.

Lemma rprompt_reaches {B1 M1 B2 M2 P K V1 T R1 : Type} {TT : Time T} {OK : Ord K} {OV1 : Ord V1} {D1 : Diff R1}
  (bops1 : BatchOps B1 M1 T) (contents1 : B1 -> list (K * V1 * T * R1)) (laws1 : BatchLaws (D:=K*V1) bops1 contents1) (bops2 : BatchOps B2 M2 T) (tactic : tactic_of B1 B2 P T) p0 e handle rw :
  rprompt bops1 contents1 laws1 bops2 tactic p0 e handle rw -> rreaches bops1 contents1 laws1 bops2 tactic p0 e handle rw.
Proof.
  induction 1 as [w Hw|w w' _ IH Hs _|w s' msgs F answer st' w' outs bs _ IH HD HT _ E]; [apply rr_start; auto|eapply rr_step; eauto|].
  destruct w as [wi wt wo wl wu]. cbn [rw_in rw_op rw_trace rw_log rw_out] in *. eapply rr_step; [exact IH|]. eapply rw_activate; eauto.
Qed.
