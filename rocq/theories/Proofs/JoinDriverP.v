(** The join operator: at all times what it has produced, together with what its deferred work will
    produce, is the join of what it has taken in. *)
From Coq Require Export Relations.Relation_Operators.
From Verif Require Export Spec.JoinOpSpec Proofs.StreamP Proofs.BilinearP.

(** ** Deferred work *)
Section Work.
Context {B1 B2 D T R3 W : Type} {OD : Ord D} {TT : Time T} {D3 : Diff R3}.
Variable tactic : JoinTactic B1 B2 T W (D * T * R3).
Notation X := (D * T * R3)%type.

Definition owes (cw : T * W) (cs : list (list X)) : Prop :=
  hands_out tactic (snd cw) cs /\ Forall (fun c => c <> []) cs /\ Forall (all_after (fst cw)) cs.
Notation debt := (fun css : list (list (list X)) => concat (concat css)).
Definition effort_left (css : list (list (list X))) : nat := list_sum (map (fun cs => S (length cs)) css).

Lemma drain_ok : forall rounds queue fuel css, Forall2 owes queue css ->
  Z.to_nat (fuel + 1) + length queue <= rounds ->
  exists queue' outs css', drain tactic rounds queue fuel = Some (queue', outs) /\ Forall2 owes queue' css' /\
    debt css = flat_map snd outs ++ debt css' /\ Forall (fun o => all_after (fst o) (snd o)) outs /\
    incl (map fst queue') (map fst queue) /\ incl (map fst outs) (map fst queue) /\
    effort_left css' <= effort_left css /\ ((0 <= fuel)%Z -> css <> [] -> effort_left css' < effort_left css).
Proof.
  induction rounds as [|rounds IH]; intros queue fuel css HO Hr; cbn [drain].
  - destruct (Z.ltb_spec fuel 0).
    + exists queue, [], css. repeat split; auto; try constructor; try (intros x; auto; fail); try (intros x []); lia.
    + exfalso. lia.
  - destruct (Z.ltb_spec fuel 0).
    { exists queue, [], css. repeat split; auto; try constructor; try (intros x; auto; fail); try (intros x []); lia. }
    inversion HO as [|[cap w] cs queue' css' (H1 & H2 & H3) HO']; subst.
    { exists [], [], []. repeat split; auto; try constructor; try (intros x; auto; fail); congruence. }
    simpl in H1, H3. inversion H1 as [? w' E|? w' c cs' E Hh]; subst; rewrite E.
    + destruct (IH queue' fuel css' HO') as (q & outs & css2 & E2 & A1 & A2 & A3 & A4 & A5 & A6 & A7); [simpl in Hr; lia|].
      exists q, outs, css2. split; [auto|]. split; [auto|]. split; [auto|]. split; [auto|].
      split; [intros x Hx; right; auto|]. split; [intros x Hx; right; auto|]. unfold effort_left in *. simpl. split; lia.
    + inversion H2; inversion H3; subst. assert (Hlen : 1 <= length c) by (destruct c; [congruence|simpl; lia]).
      destruct (IH ((cap, w') :: queue') (fuel - Z.of_nat (length c))%Z (cs' :: css')) as (q & outs & css2 & E2 & A1 & A2 & A3 & A4 & A5 & A6 & A7); [constructor; auto; split; auto| |].
      { simpl length in *. lia. }
      rewrite E2. exists q, ((cap, c) :: outs), css2. split; [auto|]. split; [auto|]. split.
      { simpl in A2 |- *. rewrite A2, <- app_assoc. auto. }
      split; [constructor; auto|]. split; [auto|]. split; [intros x [<-|Hx]; [left; auto|apply A5; auto]|].
      unfold effort_left in *. simpl in A6 |- *. split; lia.
Qed.
End Work.

(** ** Taking in the batches of one input *)
Section Accept.
Context {B M B' M' E E' D T R R' R3 W B1 B2 : Type} {OE : Ord E} {OE' : Ord E'} {OD : Ord D} {TT : Time T} {DR : Diff R} {DR' : Diff R'} {D3 : Diff R3}.
Variable ops : BatchOps B M T. Variable contents : B -> list (E * T * R). Variable laws : BatchLaws ops contents.
Variable ops' : BatchOps B' M' T. Variable contents' : B' -> list (E' * T * R'). Variable laws' : BatchLaws ops' contents'.
Variable tactic : JoinTactic B1 B2 T W (D * T * R3).
Variable prep : B -> list B' -> T -> option W.
(** the join, fresh input first *)
Variable J : list (E * T * R) -> list (E' * T * R') -> list (D * T * R3).
Hypothesis J_nil : forall c d t, acc (J [] c) d t = dzero.
Hypothesis J_app : forall a b c d t, acc (J (a ++ b) c) d t = dplus (acc (J a c) d t) (acc (J b c) d t).
Hypothesis J_congr : forall a b c d t, (forall u, In u a -> tle (snd (fst u)) t = true -> forall e, acc b e t = acc c e t) -> acc (J a b) d t = acc (J a c) d t.
Hypothesis prep_ok : forall b st cap, bl_ok _ _ laws b -> Forall (bl_ok _ _ laws') st -> Forall (fun u => tle cap (snd (fst u)) = true) (contents b) ->
  exists w cs, prep b st cap = Some w /\ owes tactic (cap, w) cs /\ same_weights (A:=D*T) (concat cs) (J (contents b) (flat_map contents' st)).
Notation sub A B := (forall t, beyond A t -> beyond B t).
Notation debt := (fun css : list (list (list (D * T * R3))) => concat (concat css)).

Variable sd' : side B' M' T. Variable ack' preload' : list T. Variable accd' rest' : list B'. Variable trace' : option (list T * list T).
Hypothesis TK' : tracks ops' contents' laws' sd' ack' preload' accd' rest'.
Hypothesis HD' : held sd' ack' trace'.
Variable H0' : list T.

(** what has been accepted on this input *)
Record accepted (sd : side B M T) (q : list B) (own own' : jside) (accd accd1 : list B) (new : list (T * W)) : Prop := {
  ad_tracks : exists rest1, tracks ops contents laws (with_flight sd q (sd_front sd)) (js_ack own') (js_preload own') accd1 rest1;
  ad_trace : js_trace own' = js_trace own;
  ad_ack : sub (js_ack own') (js_ack own);
  ad_work : exists css, Forall2 (owes tactic) new css /\
    forall d t, beyond H0' t -> acc (J (flat_map contents accd1) (flat_map contents' accd')) d t =
      dplus (acc (J (flat_map contents accd) (flat_map contents' accd')) d t) (acc (debt css) d t)
}.

Lemma accept_ok sd own accd rest b q cap HL' HP' : tracks ops contents laws sd (js_ack own) (js_preload own) accd rest -> sd_flight sd = b :: q ->
  trace' = Some (HL', HP') -> (forall t, beyond H0' t -> beyond (sd_front sd) t -> beyond HL' t) ->
  Forall (fun u => tle cap (snd (fst u)) = true) (contents b) ->
  exists own' new accd1, accept ops ops' prep (sd_spine sd') ack' cap own b = Some (own', new) /\ accepted sd q own own' accd accd1 new /\
    Forall (fun x => fst x = cap) new.
Proof.
  intros TK Eq Et Hh Hcap. destruct (tk_recv ops contents laws _ _ _ _ _ _ _ TK Eq) as (A1 & A2 & A3). unfold accept.
  unfold lower_of, upper_of in *. rewrite A1, A2. cbn [negb]. destruct A3 as [[A3 A4]|(A3 & Pb & Tb & accd1 & rest1 & ack1 & A5 & A6 & A7 & A8)]; rewrite A3; cbn [negb].
  - exists own, [], accd. split; [auto|]. split; [|constructor]. constructor; auto; [eauto|]. exists []. split; [constructor|]. intros. cbn [concat]. rewrite acc_nil, dplus_0_r. auto.
  - rewrite A5. assert (G : exists new css, (if nonempty ops b then st <- batches_through ops' (sd_spine sd') ack'; w <- prep b st cap; Some [(cap, w)] else Some []) = Some new /\
      Forall2 (owes tactic) new css /\ Forall (fun x => fst x = cap) new /\ forall d t, beyond H0' t -> acc (debt css) d t = acc (J (contents b) (flat_map contents' accd')) d t).
    { destruct (nonempty ops b) eqn:En.
      - rewrite Et in HD'. destruct (tk_read ops' contents' laws' _ _ _ _ _ _ _ TK' HD') as (bs & E1 & E2 & E3). rewrite E1.
        destruct (prep_ok b bs cap (pr_ok _ _ _ _ Pb) E2 Hcap) as (w & cs & Ep & Ho & Hw). rewrite Ep. exists [(cap, w)], [cs]. split; [auto|]. split; [constructor; auto|].
        split; [constructor; auto|]. intros d t Ht. simpl. rewrite app_nil_r, (acc_same_weights _ _ _ _ Hw). apply J_congr. intros u Hu Hut e.
        apply E3. destruct HD' as [[HA _] _]. apply HA. apply Hh; auto. unfold times_beyond in Tb. rewrite Forall_forall in Tb. destruct (Tb u Hu) as (f & Hf & Hf2).
        exists f. split; auto. eapply tle_trans; eauto.
      - apply (empty_contents ops contents laws b Pb) in En. exists [], []. split; [auto|]. split; [constructor|]. split; [constructor|]. intros. rewrite En, J_nil. auto. }
    destruct G as (new & css & Eg & Ho & Hc & Hacc). rewrite Eg. eexists _, new, accd1. split; [reflexivity|]. split; [|auto]. constructor; simpl; auto; [eauto|].
    exists css. split; auto. intros d t Ht. rewrite A8, J_app, (Hacc d t Ht). auto.
Qed.

Lemma accept_all_ok HL' HP' cap : trace' = Some (HL', HP') -> forall bs sd own accd rest q, tracks ops contents laws sd (js_ack own) (js_preload own) accd rest -> sd_flight sd = bs ++ q ->
  (forall t, beyond H0' t -> beyond (sd_front sd) t -> beyond HL' t) ->
  Forall (fun b => Forall (fun u => tle cap (snd (fst u)) = true) (contents b)) bs ->
  exists own' new accd1, accept_all ops ops' prep (sd_spine sd') ack' cap own bs = Some (own', new) /\ accepted sd q own own' accd accd1 new /\
    Forall (fun x => fst x = cap) new.
Proof.
  intros Et. induction bs as [|b bs IH]; intros sd own accd rest q TK Eq Hh Hcap.
  - exists own, [], accd. split; [auto|]. split; [|constructor]. constructor; auto.
    + exists rest. simpl in Eq. rewrite <- Eq. destruct sd; exact TK.
    + exists []. split; [constructor|]. intros. cbn [concat]. rewrite acc_nil, dplus_0_r. auto.
  - pose proof (Forall_inv Hcap). pose proof (Forall_inv_tail Hcap). destruct (accept_ok sd own accd rest b (bs ++ q) cap HL' HP' TK Eq Et Hh) as (own1 & n1 & accd1 & E1 & [(r1 & T1) Tr1 K1 (c1 & O1 & W1)] & F1); auto.
    cbn [accept_all]. rewrite E1.
    destruct (IH (with_flight sd (bs ++ q) (sd_front sd)) own1 accd1 r1 q T1 eq_refl Hh) as (own2 & n2 & accd2 & E2 & [(r2 & T2) Tr2 K2 (c2 & O2 & W2)] & F2); auto.
    rewrite E2. exists own2, (n1 ++ n2), accd2. split; [auto|]. split; [|apply Forall_app; auto]. constructor.
    + exists r2. exact T2.
    + congruence.
    + intros t Ht. apply K1, K2, Ht.
    + exists (c1 ++ c2). split; [apply Forall2_app; auto|]. intros d t Ht. rewrite W2, W1, !concat_app, acc_app, dplus_assoc; auto.
Qed.

Lemma accept_msgs_ok : forall msgs sd own accd rest q, tracks ops contents laws sd (js_ack own) (js_preload own) accd rest -> sd_flight sd = flat_map snd msgs ++ q ->
  match trace' with Some (HL', _) => forall t, beyond H0' t -> beyond (sd_front sd) t -> beyond HL' t | None => sd_front sd = [] end ->
  Forall (fun m => beyond (sd_front sd) (fst m) /\ Forall (fun b => Forall (fun u => tle (fst m) (snd (fst u)) = true) (contents b)) (snd m)) msgs ->
  exists own' new accd1, accept_msgs ops ops' prep (sd_spine sd') ack' trace' own msgs = Some (own', new) /\ accepted sd q own own' accd accd1 new /\
    Forall (fun x => beyond (sd_front sd) (fst x)) new.
Proof.
  induction msgs as [|[cap bs] msgs IH]; intros sd own accd rest q TK Eq Hh Hm.
  - exists own, [], accd. split; [auto|]. split; [|constructor]. constructor; auto.
    + exists rest. simpl in Eq. rewrite <- Eq. destruct sd; exact TK.
    + exists []. split; [constructor|]. intros. cbn [concat]. rewrite acc_nil, dplus_0_r. auto.
  - pose proof (Forall_inv Hm) as [Hb Hc]. pose proof (Forall_inv_tail Hm) as Hm'. simpl in Hb, Hc.
    assert (Et : exists HL' HP', trace' = Some (HL', HP')).
    { clear - Hh Hb. destruct trace' as [[HL' HP']|]; [eauto|]. rewrite Hh in Hb. destruct Hb as (f & [] & _). }
    destruct Et as (HL' & HP' & Et).
    assert (Ea : accept_msgs ops ops' prep (sd_spine sd') ack' trace' own ((cap, bs) :: msgs) =
      (' (own, w1) <- accept_all ops ops' prep (sd_spine sd') ack' cap own bs;
       ' (own, w2) <- accept_msgs ops ops' prep (sd_spine sd') ack' trace' own msgs; Some (own, w1 ++ w2))) by (cbn [accept_msgs]; rewrite Et; reflexivity).
    rewrite Ea. clear Ea. assert (Hh' : forall t, beyond H0' t -> beyond (sd_front sd) t -> beyond HL' t) by (rewrite Et in Hh; exact Hh).
    simpl in Eq. rewrite <- app_assoc in Eq.
    destruct (accept_all_ok HL' HP' cap Et bs sd own accd rest (flat_map snd msgs ++ q) TK Eq Hh' Hc) as (own1 & n1 & accd1 & E1 & [(r1 & T1) Tr1 K1 (c1 & O1 & W1)] & F1).
    rewrite E1. destruct (IH (with_flight sd (flat_map snd msgs ++ q) (sd_front sd)) own1 accd1 r1 q T1 eq_refl Hh Hm') as (own2 & n2 & accd2 & E2 & [(r2 & T2) Tr2 K2 (c2 & O2 & W2)] & F2).
    rewrite E2. exists own2, (n1 ++ n2), accd2. split; [auto|]. split.
    2:{ apply Forall_app. split; [|exact F2]. eapply Forall_impl; [|exact F1]. cbv beta. intros x ->. exact Hb. }
    constructor.
    + exists r2. exact T2.
    + congruence.
    + intros t Ht. apply K1, K2, Ht.
    + exists (c1 ++ c2). split; [apply Forall2_app; auto|]. intros d t Ht. rewrite W2, W1, !concat_app, acc_app, dplus_assoc; auto.
Qed.
End Accept.

(** ** One input between activations *)
Section OneSide.
Context {B M E T R : Type} {OE : Ord E} {TT : Time T} {DR : Diff R}.
Variable ops : BatchOps B M T. Variable contents : B -> list (E * T * R). Variable laws : BatchLaws ops contents.
Notation sub A B := (forall t, beyond A t -> beyond B t).

Lemma tracks_front (sd : side B M T) ack preload accd rest F : tracks ops contents laws sd ack preload accd rest -> Forall (times_beyond contents F) (sd_flight sd) ->
  tracks ops contents laws (with_flight sd (sd_flight sd) F) ack preload accd rest.
Proof.
  intros [A1 A2 A3 A4 A5 _ A7] HF. constructor; auto.
Qed.

Lemma pass_ok (sd : side B M T) own accd rest : tracks ops contents laws sd (js_ack own) (js_preload own) accd rest -> held sd (js_ack own) (js_trace own) ->
  let own' := pass_empty ops (sd_spine sd) own in
  exists accd' rest', tracks ops contents laws sd (js_ack own') (js_preload own') accd' rest' /\ held sd (js_ack own') (js_trace own') /\
    js_trace own' = js_trace own /\ flat_map contents accd' = flat_map contents accd.
Proof.
  intros TK HH. unfold pass_empty. destruct (js_trace own) as [h|] eqn:Et; cbv zeta.
  - destruct (tk_pass ops contents laws _ _ _ _ _ _ TK HH) as (accd' & rest' & T1 & T2 & T3); [discriminate|]. simpl. exists accd', rest'. split; [auto|].
    split; [|auto]. destruct HH as [HA HB]. split; auto. destruct h as [HL HP]. destruct HB as [HB1 HB2]. split; auto.
  - exists accd, rest. rewrite Et. auto.
Qed.

Lemma maintain_held (sd : side B M T) own F' H0 F : held sd (js_ack own) (js_trace own) -> sub F' F ->
  match js_trace own with Some (HL, _) => forall t, beyond H0 t -> beyond F t -> beyond HL t | None => F = [] end ->
  held sd (js_ack (maintain F' own)) (js_trace (maintain F' own)) /\
  match js_trace (maintain F' own) with Some (HL, _) => forall t, beyond H0 t -> beyond F' t -> beyond HL t | None => F' = [] end.
Proof.
  intros [HA HB] HF Hh. unfold maintain. destruct (js_trace own) as [[HL HP]|] eqn:Et.
  - simpl. destruct F' as [|f F']; [repeat split; auto|]. destruct HB as [HN HB]. destruct HA as [HA1 HA2]. split; [split; [split|split]|].
    + intros t Ht. apply antichain_join_beyond in Ht as [Ht _]. auto.
    + intros t Ht. apply antichain_join_beyond in Ht as [Ht _]. auto.
    + destruct HL as [|l HL]; [congruence|]. intros En. assert (Hb : beyond (antichain_join (l :: HL) (f :: F')) (join l f)).
      { apply antichain_join_beyond. split; [exists l; split; [left; auto|apply join_ub_l]|exists f; split; [left; auto|apply join_ub_r]]. }
      rewrite En in Hb. destruct Hb as (x & [] & _).
    + intros t Ht. apply antichain_join_beyond. auto.
    + intros t H1 H2. apply antichain_join_beyond. split; auto.
  - rewrite Et. split; [split; simpl; auto|]. subst F. destruct F' as [|f F']; auto. exfalso.
    destruct (HF f) as (x & [] & _). exists f. split; [left; auto|apply tle_refl].
Qed.
Lemma maintain_fields F' own : js_ack (maintain (T:=T) F' own) = js_ack own /\ js_preload (maintain F' own) = js_preload own.
Proof. unfold maintain. destruct (js_trace own) as [[HL HP]|]; auto. Qed.
Lemma held_sub (sd : side B M T) ack ack' h q F : held sd ack h -> sub ack' ack -> held (with_flight sd q F) ack' h.
Proof. intros [HA HB] HS. split; auto. destruct h as [[HL HP]|]; auto. destruct HB. split; auto. Qed.

(** nothing beyond what is taken in accumulates to anything before the frontier *)
Lemma complete_side (sd : side B M T) ack preload accd rest d t : tracks ops contents laws sd ack preload accd rest -> ~ beyond (sd_front sd) t ->
  acc (flat_map contents (sd_hist sd)) d t = acc (flat_map contents accd) d t.
Proof.
  intros [_ Eh _ _ _ Tb (olds & e & r & Ef & _ & _ & S)] Hn. rewrite Ef in Tb. apply Forall_app in Tb as [_ Tb]. apply Forall_app in Tb as [_ Tb].
  rewrite Eh, flat_map_app, acc_app. clear Eh Ef.
  assert (Z : acc (flat_map contents rest) d t = dzero); [|rewrite Z, dplus_0_r; auto].
  induction S as [|r rest b Hb S IH|r rest b S IH]; simpl; auto.
  - rewrite Hb. simpl. apply IH; auto.
  - inversion Tb as [|? ? Tb1 Tb2]; subst. rewrite acc_app, (IH Tb2), dplus_0_r. unfold times_beyond in Tb1.
    induction Tb1 as [|u us Hu _ IHu]; auto. rewrite acc_cons', IHu, dplus_0_r. destruct (tle (snd (fst u)) t) eqn:Et; [|rewrite andb_false_r; auto].
    exfalso. apply Hn. destruct Hu as (f & Hf & Hf2). exists f. split; auto. eapply tle_trans; eauto.
Qed.
End OneSide.

(** ** The operator *)
Section World.
Context {B1 M1 B2 M2 K V1 V2 D T R1 R2 R3 W : Type} {OK : Ord K} {OV1 : Ord V1} {OV2 : Ord V2} {OD : Ord D} {TT : Time T}
  {D1 : Diff R1} {D2 : Diff R2} {D3 : Diff R3} {MU : Multiply R1 R2 R3}.
Variable ops1 : BatchOps B1 M1 T. Variable contents1 : B1 -> list (K * V1 * T * R1). Variable laws1 : BatchLaws (D:=K*V1) ops1 contents1.
Variable ops2 : BatchOps B2 M2 T. Variable contents2 : B2 -> list (K * V2 * T * R2). Variable laws2 : BatchLaws (D:=K*V2) ops2 contents2.
Variable tactic : JoinTactic B1 B2 T W (D * T * R3).
Variable result : K -> V1 -> V2 -> list D.
Hypothesis TL : joins (MU:=MU) ops1 contents1 laws1 ops2 contents2 laws2 tactic result.
Variable budget : Z.
Variable h1 h2 : list T * list T.
Notation debt := (fun css : list (list (list (D * T * R3))) => concat (concat css)).
Notation J := (join_updates (MU:=MU) result).
Notation J' := (fun b a => join_updates (MU:=MU) result a b).
Notation jworld := (jworld (B1:=B1) (M1:=M1) (B2:=B2) (M2:=M2) (D:=D) (T:=T) (R3:=R3) (W:=W)).

Lemma Jacc_nil_l c d t : acc (J [] c) d t = dzero.
Proof. reflexivity. Qed.
Lemma Jacc_app_l a b c d t : acc (J (a ++ b) c) d t = dplus (acc (J a c) d t) (acc (J b c) d t).
Proof. rewrite join_updates_app_l, acc_app. auto. Qed.
Lemma Jacc_nil_r c d t : acc (J c []) d t = dzero.
Proof. rewrite join_updates_nil_r. auto. Qed.
Lemma Jacc_app_r a b c d t : acc (J c (a ++ b)) d t = dplus (acc (J c a) d t) (acc (J c b) d t).
Proof. rewrite (acc_same_weights _ _ d t (join_updates_app_r (MU:=MU) result c a b)), acc_app. auto. Qed.

Lemma prep_ok1 b st cap : bl_ok _ _ laws1 b -> Forall (bl_ok _ _ laws2) st -> Forall (fun u => tle cap (snd (fst u)) = true) (contents1 b) ->
  exists w cs, jt_prep tactic [b] st true cap = Some w /\ owes tactic (cap, w) cs /\ same_weights (A:=D*T) (concat cs) (J (contents1 b) (flat_map contents2 st)).
Proof.
  intros Hb Hs Hc. destruct (TL [b] st true cap) as (w & cs & E & H1 & H2 & H3 & H4); auto; [simpl; rewrite app_nil_r; auto|].
  exists w, cs. split; [auto|]. split; [repeat split; auto|]. simpl in H4. rewrite app_nil_r in H4. auto.
Qed.
Lemma prep_ok2 b st cap : bl_ok _ _ laws2 b -> Forall (bl_ok _ _ laws1) st -> Forall (fun u => tle cap (snd (fst u)) = true) (contents2 b) ->
  exists w cs, jt_prep tactic st [b] false cap = Some w /\ owes tactic (cap, w) cs /\ same_weights (A:=D*T) (concat cs) (J (flat_map contents1 st) (contents2 b)).
Proof.
  intros Hb Hs Hc. destruct (TL st [b] false cap) as (w & cs & E & H1 & H2 & H3 & H4); auto; [simpl; rewrite app_nil_r; auto|].
  exists w, cs. split; [auto|]. split; [repeat split; auto|]. simpl in H4. rewrite app_nil_r in H4. auto.
Qed.

Definition sinv1 (s1 : side B1 M1 T) (F2 : list T) (own : jside) (accd : list B1) : Prop :=
  (exists rest, tracks ops1 contents1 laws1 s1 (js_ack own) (js_preload own) accd rest) /\ held s1 (js_ack own) (js_trace own) /\
  match js_trace own with Some (HL, _) => forall t, beyond (fst h1) t -> beyond F2 t -> beyond HL t | None => F2 = [] end.
Definition sinv2 (s2 : side B2 M2 T) (F1 : list T) (own : jside) (accd : list B2) : Prop :=
  (exists rest, tracks ops2 contents2 laws2 s2 (js_ack own) (js_preload own) accd rest) /\ held s2 (js_ack own) (js_trace own) /\
  match js_trace own with Some (HL, _) => forall t, beyond (fst h2) t -> beyond F1 t -> beyond HL t | None => F1 = [] end.

Definition jinv (w : jworld) (n : nat) : Prop :=
  exists accd1 accd2 css0 css1,
    sinv1 (jw_in1 w) (sd_front (jw_in2 w)) (j_side1 (jw_join w)) accd1 /\ sinv2 (jw_in2 w) (sd_front (jw_in1 w)) (j_side2 (jw_join w)) accd2 /\
    Forall2 (owes tactic) (j_todo0 (jw_join w)) css0 /\ Forall2 (owes tactic) (j_todo1 (jw_join w)) css1 /\
    (forall d t, beyond (fst h1) t -> beyond (fst h2) t ->
       acc (produced w ++ debt css0 ++ debt css1) d t = acc (J (flat_map contents1 accd1) (flat_map contents2 accd2)) d t) /\
    Forall (fun o => all_after (fst o) (snd o)) (jw_out w) /\ effort_left css0 + effort_left css1 = n.

Lemma prep_all_ok (s1 : Spine B1 M1 T) ack1 st : batches_through ops1 s1 ack1 = Some st -> Forall (bl_ok _ _ laws1) st -> forall bs, Forall (bl_ok _ _ laws2) bs ->
  exists todo css, prep_all ops1 tactic s1 ack1 tmin bs = Some todo /\ Forall2 (owes tactic) todo css /\
    forall d t, acc (debt css) d t = acc (J (flat_map contents1 st) (flat_map contents2 bs)) d t.
Proof.
  intros Est Hst. induction bs as [|b bs IH]; intros Hbs.
  - exists [], []. split; [auto|]. split; [constructor|]. intros. cbn [flat_map concat]. rewrite Jacc_nil_r. auto.
  - inversion Hbs; subst. destruct IH as (todo & css & E & Ho & Ha); auto. cbn [prep_all]. rewrite Est.
    destruct (prep_ok2 b st tmin) as (w & cs & Ep & Hw & Hc); auto. { apply Forall_forall. intros; apply tmin_le. }
    rewrite Ep, E. exists ((tmin, w) :: todo), (cs :: css). split; [auto|]. split; [constructor; auto|]. intros d t. simpl.
    rewrite concat_app, acc_app, Ha, Jacc_app_r. f_equal. apply acc_same_weights; auto.
Qed.

Lemma starts_ok (w0 : jworld) : jstarts ops1 contents1 laws1 ops2 contents2 laws2 h1 h2 w0 ->
  exists j, j_start ops1 ops2 tactic (sd_spine (jw_in1 w0)) (sd_spine (jw_in2 w0)) h1 h2 tmin = Some j /\
    exists n, jinv {| jw_in1 := jw_in1 w0; jw_in2 := jw_in2 w0; jw_join := j; jw_out := jw_out w0 |} n.
Proof.
  intros ((e1 & G1) & (e2 & G2) & A1 & A2 & N1 & N2 & U1 & U2 & Eo).
  destruct h1 as [HL1 HP1] eqn:E1, h2 as [HL2 HP2] eqn:E2. cbn [fst snd] in *.
  destruct (tk_begin ops1 contents1 laws1 _ _ _ _ G1 A1 N1 U1) as (R1' & T1 & H1 & O1 & S1).
  destruct (tk_begin ops2 contents2 laws2 _ _ _ _ G2 A2 N2 U2) as (R2' & T2 & H2 & O2 & S2).
  unfold j_start. cbn [snd].
  rewrite (proj2 (ac_le_spec HP1 _) (fun t H => U1 t (proj1 (R1' t) H))), (proj2 (ac_le_spec HP2 _) (fun t H => U2 t (proj1 (R2' t) H))). cbn [negb].
  destruct (tk_read ops1 contents1 laws1 _ _ _ _ _ _ _ T1 H1) as (st & Est & Ost & Sst).
  destruct (prep_all_ok (sd_spine (jw_in1 w0)) (read_upper ops1 (sd_spine (jw_in1 w0))) st Est Ost _ O2) as (todo & css & Ep & Ho & Ha). rewrite Ep.
  eexists. split; [reflexivity|]. eexists. exists (sd_hist (jw_in1 w0)), (sd_hist (jw_in2 w0)), [], css. simpl. unfold sinv1, sinv2. simpl. rewrite E1, E2. cbn [fst].
  split; [split; [eauto|split; [auto|auto]]|]. split; [split; [eauto|split; [auto|auto]]|]. split; [constructor|]. split; [auto|]. split; [|rewrite Eo; split; [constructor|reflexivity]].
  intros d t B1' B2'. unfold produced. simpl. rewrite Eo. simpl. rewrite Ha.
  rewrite (acc_join_congr_l (MU:=MU) result (flat_map contents1 st) (flat_map contents1 (sd_hist (jw_in1 w0)))).
  2:{ intros u _ _ x. apply Sst. apply A1. auto. }
  apply acc_join_congr_r. intros u _ _ x. apply S2. apply A2. auto.
Qed.

Lemma activate_ok (w : jworld) n msgs1 msgs2 F1 F2 s1' s2' : jinv w n -> delivers contents1 (jw_in1 w) msgs1 F1 s1' -> delivers contents2 (jw_in2 w) msgs2 F2 s2' ->
  exists j' outs n', j_activate ops1 ops2 tactic budget (sd_spine (jw_in1 w)) (sd_spine (jw_in2 w)) msgs1 msgs2 F1 F2 (jw_join w) = Some (j', outs) /\
    jinv {| jw_in1 := s1'; jw_in2 := s2'; jw_join := j'; jw_out := jw_out w ++ outs |} n' /\
    ((0 <= budget)%Z -> msgs1 = [] -> msgs2 = [] -> n <> 0 -> n' < n) /\
    Forall (fun o => In (fst o) (jheld (jw_join w)) \/ beyond (sd_front (jw_in1 w)) (fst o) \/ beyond (sd_front (jw_in2 w)) (fst o)) outs /\
    Forall (fun t => In t (jheld (jw_join w)) \/ beyond (sd_front (jw_in1 w)) t \/ beyond (sd_front (jw_in2 w)) t) (jheld j').
Proof.
  intros (accd1 & accd2 & css0 & css1 & ((rest1 & T1) & H1 & C1) & ((rest2 & T2) & H2 & C2) & O0 & O1 & HA & HF & Hn) (q1 & Eq1 & Es1 & Hm1 & Hf1 & Hq1) (q2 & Eq2 & Es2 & Hm2 & Hf2 & Hq2).
  destruct w as [s1 s2 j out]. destruct j as [own1 own2 todo0 todo1]. simpl in *. unfold j_activate. cbn [j_side1 j_side2 j_todo0 j_todo1].
  edestruct (accept_msgs_ok ops1 contents1 laws1 ops2 contents2 laws2 tactic (fun b st cap => jt_prep tactic [b] st true cap) J Jacc_nil_l Jacc_app_l) with (msgs := msgs1) (sd := s1) (own := own1) (H0' := fst h2)
    as (own1a & new0 & accd1a & E1 & [(r1 & T1a) Tr1 K1 (cn0 & On0 & W0)] & Fn0); [intros; apply acc_join_congr_r; auto|exact prep_ok1|exact T2|exact H2|exact T1|exact Eq1|exact C2|exact Hm1|].
  rewrite E1.
  assert (H1a : held (with_flight s1 q1 (sd_front s1)) (js_ack own1a) (js_trace own1a)) by (rewrite Tr1; eapply held_sub; eauto).
  edestruct (accept_msgs_ok ops2 contents2 laws2 ops1 contents1 laws1 tactic (fun b st cap => jt_prep tactic st [b] false cap) J' Jacc_nil_r (fun a b c => Jacc_app_r a b c)) with (msgs := msgs2) (sd := s2) (own := own2) (H0' := fst h1)
    as (own2a & new1 & accd2a & E2 & [(r2 & T2a) Tr2 K2 (cn1 & On1 & W1)] & Fn1); [intros; apply acc_join_congr_l; auto|exact prep_ok2|exact T1a|exact H1a|exact T2|exact Eq2|rewrite Tr1; exact C1|exact Hm2|].
  simpl in E2. rewrite E2.
  assert (H2a : held (with_flight s2 q2 (sd_front s2)) (js_ack own2a) (js_trace own2a)) by (rewrite Tr2; eapply held_sub; eauto).
  destruct (pass_ok ops1 contents1 laws1 _ _ _ _ T1a H1a) as (accd1b & r1b & T1b & H1b & Tr1b & Fl1). simpl sd_spine in *.
  destruct (pass_ok ops2 contents2 laws2 _ _ _ _ T2a H2a) as (accd2b & r2b & T2b & H2b & Tr2b & Fl2). simpl sd_spine in *.
  set (own1b := pass_empty ops1 (sd_spine s1) own1a) in *. set (own2b := pass_empty ops2 (sd_spine s2) own2a) in *.
  destruct (drain_ok tactic (drain_rounds (todo0 ++ new0) budget) (todo0 ++ new0) budget (css0 ++ cn0) (Forall2_app O0 On0)) as (td0 & outs0 & cd0 & Ed0 & Od0 & Ac0 & Al0 & In0 & Io0 & Le0 & Lt0).
  { unfold drain_rounds. lia. }
  destruct (drain_ok tactic (drain_rounds (todo1 ++ new1) budget) (todo1 ++ new1) budget (css1 ++ cn1) (Forall2_app O1 On1)) as (td1 & outs1 & cd1 & Ed1 & Od1 & Ac1 & Al1 & In1 & Io1 & Le1 & Lt1).
  { unfold drain_rounds. lia. }
  rewrite Ed0, Ed1. eexists _, (outs0 ++ outs1), (effort_left cd0 + effort_left cd1). split; [reflexivity|].
  destruct (maintain_held _ own1b F2 (fst h1) (sd_front s2) H1b Hf2) as [Hh1 Hc1]; [rewrite Tr1b, Tr1; exact C1|].
  destruct (maintain_held _ own2b F1 (fst h2) (sd_front s1) H2b Hf1) as [Hh2 Hc2]; [rewrite Tr2b, Tr2; exact C2|].
  split; [|split; [|split]].
  - exists accd1b, accd2b, cd0, cd1. cbn [jw_in1 jw_in2 jw_join jw_out j_side1 j_side2 j_todo0 j_todo1].
    split; [|split; [|split; [auto|split; [auto|split; [|split; [|auto]]]]]].
    + split; [|split].
      * exists r1b. destruct (maintain_fields F2 own1b) as [-> ->]. subst s1'. exact (tracks_front _ _ _ _ _ _ _ _ F1 T1b Hq1).
      * subst s1'. exact Hh1.
      * subst s2'. exact Hc1.
    + split; [|split].
      * exists r2b. destruct (maintain_fields F1 own2b) as [-> ->]. subst s2'. exact (tracks_front _ _ _ _ _ _ _ _ F2 T2b Hq2).
      * subst s2'. exact Hh2.
      * subst s1'. exact Hc2.
    + intros d t B1' B2'. unfold produced in *. simpl. rewrite Fl1, Fl2, (W1 d t B1'), (W0 d t B2'), <- (HA d t B1' B2'). simpl.
      rewrite !flat_map_app, !acc_app. rewrite !concat_app in Ac0, Ac1.
      assert (X0 : dplus (acc (debt css0) d t) (acc (debt cn0) d t) = dplus (acc (flat_map snd outs0) d t) (acc (debt cd0) d t)) by (rewrite <- !acc_app; f_equal; auto).
      assert (X1 : dplus (acc (debt css1) d t) (acc (debt cn1) d t) = dplus (acc (flat_map snd outs1) d t) (acc (debt cd1) d t)) by (rewrite <- !acc_app; f_equal; auto).
      cbv beta in X0, X1 |- *.
      transitivity (dplus (acc (flat_map snd out) d t) (dplus (dplus (acc (debt css0) d t) (acc (debt cn0) d t)) (dplus (acc (debt css1) d t) (acc (debt cn1) d t)))); [|cbv beta; dperm].
      cbv beta. rewrite X0, X1. dperm.
    + apply Forall_app; split; auto. apply Forall_app; auto.
  - intros Hb -> -> Hne. simpl in E1, E2. inversion E1; subst. inversion E2; subst. inversion On0; inversion On1; subst.
    rewrite !app_nil_r in *. destruct css0 as [|c0 css0]; [|specialize (Lt0 Hb); specialize (Lt0 ltac:(discriminate)); lia].
    destruct css1 as [|c1 css1]; [exfalso; apply Hne; reflexivity|]. specialize (Lt1 Hb ltac:(discriminate)). lia.
  - rewrite Forall_forall in Fn0, Fn1. apply Forall_forall. intros o Ho. unfold jheld. simpl. rewrite map_app, in_app_iff.
    apply in_app_iff in Ho as [Ho|Ho]; apply (in_map fst) in Ho; [apply Io0 in Ho|apply Io1 in Ho]; rewrite map_app, in_app_iff in Ho; destruct Ho as [Ho|Ho]; auto;
      apply in_map_iff in Ho as (x & Ex & Hx); rewrite <- Ex; auto.
  - rewrite Forall_forall in Fn0, Fn1. apply Forall_forall. intros o Ho. unfold jheld in *. cbn [jw_join j_todo0 j_todo1] in *. rewrite map_app, in_app_iff in Ho. rewrite map_app, in_app_iff.
    destruct Ho as [Ho|Ho]; [apply In0 in Ho|apply In1 in Ho]; rewrite map_app, in_app_iff in Ho; destruct Ho as [Ho|Ho]; auto;
      apply in_map_iff in Ho as (x & Ex & Hx); rewrite <- Ex; auto.
Qed.

Lemma step_ok (w w' : jworld) n : jinv w n -> jstep ops1 contents1 laws1 ops2 contents2 laws2 tactic budget w w' -> exists n', jinv w' n'.
Proof.
  intros HI HS. destruct HS as [s1 s1' s2 j o HE|s1 s2 s2' j o HE|s1 s1' s2 s2' j j' o msgs1 msgs2 F1 F2 outs G1 G2 Ea].
  - destruct HI as (accd1 & accd2 & css0 & css1 & ((rest1 & T1) & H1 & C1) & S2 & HI). simpl in *.
    destruct (tracks_env ops1 contents1 laws1 _ _ _ _ _ _ _ HE T1 H1) as (rest' & T1' & H1' & Ef).
    exists n, accd1, accd2, css0, css1. simpl. split; [split; [eauto|auto]|]. rewrite Ef. auto.
  - destruct HI as (accd1 & accd2 & css0 & css1 & S1 & ((rest2 & T2) & H2 & C2) & HI). simpl in *.
    destruct (tracks_env ops2 contents2 laws2 _ _ _ _ _ _ _ HE T2 H2) as (rest' & T2' & H2' & Ef).
    exists n, accd1, accd2, css0, css1. simpl. rewrite Ef. split; [auto|]. split; [split; [eauto|auto]|auto].
  - destruct (activate_ok _ _ _ _ _ _ _ _ HI G1 G2) as (j2 & outs2 & n' & E & HI' & _). simpl in E. rewrite Ea in E. inversion E; subst. eauto.
Qed.

Lemma reaches_inv (w : jworld) : jreaches ops1 contents1 laws1 ops2 contents2 laws2 tactic budget h1 h2 w -> exists n, jinv w n.
Proof.
  induction 1 as [w Hs Ej|w w' _ [n IH] Hs].
  - destruct (starts_ok _ Hs) as (j & Ej2 & n & HI). rewrite Ej in Ej2. inversion Ej2; subst. exists n. destruct w; exact HI.
  - eapply step_ok; eauto.
Qed.

Lemma acc_all_after (us : list (D * T * R3)) m d t : all_after m us -> tle m t = false -> acc us d t = dzero.
Proof.
  intros H Hm. unfold all_after in H. induction H as [|u us Hu _ IH]; auto. rewrite acc_cons', IH, dplus_0_r.
  destruct (tle (snd (fst u)) t) eqn:Et; [|rewrite andb_false_r; auto]. rewrite (tle_trans _ _ _ Hu Et) in Hm. discriminate.
Qed.
Lemma debt_zero todo css d t : Forall2 (owes tactic) todo css -> Forall (fun c => tle c t = false) (map fst todo) -> acc (debt css) d t = dzero.
Proof.
  induction 1 as [|[cap w] cs todo css (H1 & H2 & H3) _ IH]; intros Ht; auto. inversion Ht; subst. simpl. rewrite concat_app, acc_app, IH, dplus_0_r; auto.
  simpl in *. clear H1 H2. induction H3; auto. simpl. rewrite acc_app, IHForall, dplus_0_r. eapply acc_all_after; eauto.
Qed.

Lemma complete_ok w : jreaches ops1 contents1 laws1 ops2 contents2 laws2 tactic budget h1 h2 w -> forall t,
  beyond (fst h1) t -> beyond (fst h2) t -> ~ beyond (sd_front (jw_in1 w)) t -> ~ beyond (sd_front (jw_in2 w)) t ->
  Forall (fun c => tle c t = false) (jheld (jw_join w)) ->
  forall d, acc (produced w) d t = acc (J (flat_map contents1 (sd_hist (jw_in1 w))) (flat_map contents2 (sd_hist (jw_in2 w)))) d t.
Proof.
  intros HR t B1' B2' N1 N2 Hc d. destruct (reaches_inv _ HR) as (n & accd1 & accd2 & css0 & css1 & ((rest1 & T1) & _) & ((rest2 & T2) & _) & O0 & O1 & HA & _).
  unfold jheld in Hc. rewrite map_app in Hc. apply Forall_app in Hc as [Hc0 Hc1].
  pose proof (HA d t B1' B2') as G. rewrite !acc_app, (debt_zero _ _ d t O0 Hc0), (debt_zero _ _ d t O1 Hc1), !dplus_0_r in G. rewrite G.
  transitivity (acc (J (flat_map contents1 (sd_hist (jw_in1 w))) (flat_map contents2 accd2)) d t).
  - apply acc_join_congr_l. intros u _ _ x. symmetry. eapply complete_side; eauto.
  - apply acc_join_congr_r. intros u _ _ x. symmetry. eapply complete_side; eauto.
Qed.

(** activations without input drain the queues *)
Lemma drains_ok : (0 <= budget)%Z -> forall n w, jinv w n -> exists w', clos_refl_trans _ (jstep ops1 contents1 laws1 ops2 contents2 laws2 tactic budget) w w' /\
  jw_in1 w' = jw_in1 w /\ jw_in2 w' = jw_in2 w /\ j_todo0 (jw_join w') = [] /\ j_todo1 (jw_join w') = [].
Proof.
  intros Hb. induction n as [n IH] using lt_wf_ind. intros w HI.
  destruct n as [|n].
  - exists w. split; [apply rt_refl|]. split; [auto|]. split; [auto|]. destruct HI as (accd1 & accd2 & css0 & css1 & _ & _ & O0 & O1 & _ & _ & Hn).
    destruct css0 as [|c0 css0]; [|unfold effort_left in Hn; simpl in Hn; lia]. destruct css1 as [|c1 css1]; [|unfold effort_left in Hn; simpl in Hn; lia].
    inversion O0; inversion O1; auto.
  - assert (G1 : delivers contents1 (jw_in1 w) [] (sd_front (jw_in1 w)) (jw_in1 w)).
    { destruct HI as (accd1 & accd2 & css0 & css1 & ((rest1 & T1) & _) & _). exists (sd_flight (jw_in1 w)). split; [auto|]. split; [destruct (jw_in1 w); auto|].
      split; [constructor|]. split; [auto|apply T1]. }
    assert (G2 : delivers contents2 (jw_in2 w) [] (sd_front (jw_in2 w)) (jw_in2 w)).
    { destruct HI as (accd1 & accd2 & css0 & css1 & _ & ((rest2 & T2) & _) & _). exists (sd_flight (jw_in2 w)). split; [auto|]. split; [destruct (jw_in2 w); auto|].
      split; [constructor|]. split; [auto|apply T2]. }
    destruct (activate_ok _ _ _ _ _ _ _ _ HI G1 G2) as (j' & outs & n' & E & HI' & Hlt & _).
    destruct (IH n' ltac:(apply Hlt; auto; discriminate) _ HI') as (w' & P1 & P2 & P3 & P4). simpl in P2, P3.
    exists w'. split; [|auto]. eapply rt_trans; [apply rt_step|exact P1]. destruct w as [s1 s2 j o]. simpl in *. eapply js_activate; eauto.
Qed.
End World.
