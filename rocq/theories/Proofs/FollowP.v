(** An operator that takes in every batch of an arrangement made along with it. *)
From Verif Require Export Proofs.StreamP Proofs.JoinDriverP.

Section Follow.
Context {B M D T R : Type} {OD : Ord D} {TT : Time T} {DR : Diff R}.
Variable ops : BatchOps B M T.
Variable contents : B -> list (D * T * R).
Variable laws : BatchLaws ops contents.
Notation lower_of := (lower_of ops). Notation upper_of := (upper_of ops).
Notation proper := (proper ops contents laws). Notation tiles := (tiles ops).
Notation side := (side B M T).
Notation tracks := (tracks ops contents laws).
Notation sub A B := (forall t, beyond A t -> beyond B t).

Record follows (sd : side) (ack : list T) (accd rest : list B) : Prop := {
  fo_tracks : tracks sd ack [tmin] accd rest;
  fo_sent : sent contents (sd_flight sd) rest
}.
(** the handle on the trace *)
Definition holds (sd : side) (ack : list T) (h : list T * list T) : Prop :=
  allowed (Some h) (sd_logical sd) (sd_physical sd) /\ (ack <> [] -> fst h <> []) /\ sub ack (snd h).

Lemma sub_tmin (A : list T) : sub A ([tmin] : list T).
Proof. intros t _. exists tmin. split; [left; auto|apply tmin_le]. Qed.
Lemma follows_intro (sd : side) (ack : list T) (accd rest : list B) : side_inv ops contents laws sd -> sd_hist sd = accd ++ rest ->
  (exists mid, tiles [tmin] accd mid /\ same_future ack mid) -> antichain ack ->
  Forall (times_beyond contents (sd_front sd)) (sd_flight sd) -> sent contents (sd_flight sd) rest -> follows sd ack accd rest.
Proof.
  intros H1 H2 H3 H4 H5 H6. constructor; [|exact H6]. constructor; auto; [apply sub_tmin|]. exists [], [], (sd_flight sd). split; auto.
Qed.

Lemma fo_env h (sd sd' : side) (ack : list T) (accd rest : list B) : side_env ops contents laws (Some h) sd sd' -> follows sd ack accd rest -> holds sd ack h ->
  exists rest', follows sd' ack accd rest' /\ holds sd' ack h /\ sd_front sd' = sd_front sd.
Proof.
  intros HE [TK S] HH. pose proof (side_env_inv ops contents laws _ _ _ HE (tk_inv _ _ _ _ _ _ _ _ TK)) as HI.
  destruct TK as [_ E Mid Ac Pre Tb _]. destruct HE; simpl in *.
  - exists (rest ++ [b]). split; [apply follows_intro; simpl; auto|split; auto].
    + rewrite E, app_assoc; auto.
    + apply Forall_app; auto.
    + apply sent_snoc_keep; auto.
  - exists (rest ++ [b]). split; [apply follows_intro; simpl; auto|split; auto].
    + rewrite E, app_assoc; auto.
    + apply sent_snoc_skip; auto.
  - exists rest. split; [apply follows_intro; simpl; auto|split; auto].
  - exists rest. split; [apply follows_intro; simpl; auto|split; auto]. destruct HH as [_ HH]. split; auto.
  - exists rest. split; [apply follows_intro; simpl; auto|split; auto]. destruct HH as [_ HH]. split; auto.
Qed.

(** taking in the next batch *)
Lemma fo_recv (sd : side) (ack : list T) (accd rest : list B) b q : follows sd ack accd rest -> sd_flight sd = b :: q ->
  exists es rest', rest = es ++ b :: rest' /\ Forall (fun x => contents x = []) es /\ proper b /\ sub (lower_of b) ack /\
    follows (with_flight sd q (sd_front sd)) (upper_of b) (accd ++ es ++ [b]) rest'.
Proof.
  intros [TK S] Eq. rewrite Eq in S. pose proof (tk_proper _ _ _ _ _ _ _ _ TK) as Pr. destruct (tk_tiles _ _ _ _ _ _ _ _ TK) as (mid & T1 & T2 & HM).
  destruct TK as [HI E _ Ac Pre Tb _]. rewrite Eq in Tb. destruct (sent_head _ _ _ _ S) as (es & rest' & -> & Fe & S').
  assert (Pb : proper b) by (rewrite Forall_forall in Pr; apply Pr; rewrite !in_app_iff; simpl; auto).
  destruct (tiles_app _ _ _ _ _ T2) as (mid2 & T3 & T4). inversion T4 as [|? ? ? ? L4 T5]; subst.
  apply Forall_app in Pr as [Pr1 Pr2]. apply Forall_app in Pr2 as [Pr2 Pr3]. inversion Pr3 as [|? ? _ Pr4]; subst.
  assert (La : sub (lower_of b) ack) by (intros t Ht; apply HM, (tiles_le _ _ _ _ _ _ T3 Pr2), L4, Ht).
  exists es, rest'. split; [auto|]. split; [auto|]. split; [auto|]. split; [auto|].
  apply follows_intro; simpl; auto.
  - rewrite E, <- !app_assoc. auto.
  - exists (upper_of b). split; [|apply same_future_refl]. rewrite app_assoc. eapply tiles_snoc; [|exact L4].
    eapply tiles_cat; eauto.
  - apply Pb.
  - inversion Tb; auto.
Qed.
Definition last_upper (ack : list T) (bs : list B) : list T := fold_left (fun _ b => d_upper (b_desc ops b)) bs ack.
Lemma fo_recv_all bs : forall (sd : side) (ack : list T) (accd rest : list B) q, follows sd ack accd rest -> sd_flight sd = bs ++ q ->
  exists new rest', rest = new ++ rest' /\ Forall proper bs /\ flat_map contents new = flat_map contents bs /\ sub (last_upper ack bs) ack /\
    (bs <> [] -> ack <> []) /\ incl bs new /\
    follows (with_flight sd q (sd_front sd)) (last_upper ack bs) (accd ++ new) rest'.
Proof.
  induction bs as [|b bs IH]; intros sd ack accd rest q HF Eq.
  - exists [], rest. rewrite app_nil_r. split; [auto|]. split; [constructor|]. split; [auto|]. split; [intros t; auto|]. split; [congruence|]. split; [intros x []|].
    simpl in Eq. destruct sd; simpl in *; subst; exact HF.
  - destruct (fo_recv _ _ _ _ _ _ HF Eq) as (es & rest1 & E1 & Fe & Pb & Lb & HF1).
    destruct (IH _ _ _ _ q HF1 eq_refl) as (new & rest' & E2 & Pbs & Ec & Sb & _ & Hin & HF2).
    exists (es ++ b :: new), rest'. split; [subst; rewrite <- app_assoc; auto|]. split; [constructor; auto|].
    split; [rewrite flat_map_app, (flat_map_empty contents _ Fe); simpl; rewrite Ec; auto|].
    split; [intros t Ht; apply Lb, (pr_le _ _ _ _ Pb), Sb, Ht|].
    split; [|split; [intros x [<-|Hx]; apply in_or_app; right; [left; auto|right; apply Hin, Hx]|simpl in *; rewrite <- !app_assoc in HF2; exact HF2]].
    intros _ Ea. subst ack. apply (proper_lt _ _ _ _ Pb). intros t Ht. exfalso. apply (beyond_nil (T:=T) t), Lb, Ht.
Qed.

(** passing over empty batches, when there are none on the stream *)
Lemma fo_pass (sd : side) (ack : list T) (accd rest : list B) h : follows sd ack accd rest -> holds sd ack h ->
  Forall (fun b => contents b <> []) (sd_flight sd) ->
  exists es rest', let ack' := advance_upper ops (sd_spine sd) ack in
    rest = es ++ rest' /\ Forall (fun b => contents b = []) es /\ follows sd ack' (accd ++ es) rest' /\ sub ack' ack /\ (forall b l, rest' = b :: l -> contents b <> []).
Proof.
  intros [TK S] [HA [_ HH]] Hne. destruct (tk_pass_over ops contents laws _ _ _ _ _ (snd h) TK) as (es & rest' & Er & Fe & TK' & Sb & Ne); auto.
  { destruct h; apply HA. }
  exists es, rest'. cbv zeta. split; [auto|]. split; [auto|]. split; [|auto]. constructor; [exact TK'|].
  rewrite Er in S. destruct (sent_split _ _ _ _ S) as (r1 & r2 & Ef & S1 & S2). destruct r1 as [|x r1]; [rewrite Ef; exact S2|]. exfalso.
  pose proof (sent_in _ _ _ x S1 (or_introl eq_refl)) as Hx. rewrite Forall_forall in Fe, Hne. apply (Hne x); [rewrite Ef; left; auto|apply Fe; auto].
Qed.

Lemma fo_held (sd : side) (ack : list T) h : holds sd ack h -> ack <> [] -> held sd ack (Some h).
Proof. destruct h. intros [H1 [H2 H3]] Ha. split; auto. Qed.
Lemma ac_join_nonempty (A C : list T) : A <> [] -> C <> [] -> antichain_join A C <> [].
Proof.
  intros HA HC E. destruct A as [|a A]; [congruence|]. destruct C as [|c C]; [congruence|].
  apply (beyond_nil (T:=T) (join a c)). rewrite <- E. apply antichain_join_beyond. split; [exists a|exists c]; (split; [left; auto|]); [apply join_ub_l|apply join_ub_r].
Qed.
Lemma holds_advance (sd : side) (ack ack' : list T) h : holds sd ack h -> sub ack' ack -> (ack' <> [] -> ack <> []) ->
  holds sd ack' (antichain_join (fst h) ack', antichain_join (snd h) ack').
Proof.
  destruct h as [HL HP]. intros [[H1 H1'] [H2 H3]] Hs Hn. simpl in *. split; [split|split]; simpl.
  - intros t Ht. apply antichain_join_beyond in Ht. apply H1. tauto.
  - intros t Ht. apply antichain_join_beyond in Ht. apply H1'. tauto.
  - intros Ha. apply ac_join_nonempty; auto.
  - intros t Ht. apply antichain_join_beyond. auto.
Qed.
Lemma sub_nonempty (A C : list T) : sub A C -> A <> [] -> C <> [].
Proof. intros H HA EC. destruct A as [|a A]; [congruence|]. subst. apply (beyond_nil (T:=T) a). apply H. exists a. split; [left; auto|apply tle_refl]. Qed.
Lemma follows_front (sd : side) (ack : list T) (accd rest : list B) F : follows sd ack accd rest -> Forall (times_beyond contents F) (sd_flight sd) ->
  follows (with_flight sd (sd_flight sd) F) ack accd rest.
Proof. intros [H1 H2] HF. constructor; [|exact H2]. eapply tracks_front; eauto. Qed.
Lemma follows_same (sd : side) (ack ack' : list T) (accd rest : list B) : follows sd ack accd rest -> same_future ack ack' -> antichain ack' -> follows sd ack' accd rest.
Proof.
  intros [TK S] HS HA. pose proof TK as [A1 A2 (mid & A3 & A3') A4 A5 A6 _]. apply follows_intro; auto. exists mid. split; auto. intros t. rewrite <- (HS t). apply A3'.
Qed.
(** A frontier that is ahead neither of the trace nor of a batch on the stream is not ahead of what was taken in. *)
Lemma follows_not_ahead (sd : side) (ack : list T) (accd rest : list B) F : follows sd ack accd rest -> (forall b l, rest = b :: l -> contents b <> []) ->
  sub (sd_upper sd) F -> Forall (fun b => sub (lower_of b) F) (sd_flight sd) -> sub ack F.
Proof.
  intros [TK S] HN HU HF t Ht. destruct (tk_tiles _ _ _ _ _ _ _ _ TK) as (mid & T1 & T2 & HM). apply HM in Ht.
  destruct rest as [|b rest]; [inversion T2 as [? ? H0|]; subst; apply HU, H0; auto|]. inversion T2 as [|? ? ? ? L T3]; subst. specialize (HN b rest eq_refl).
  inversion S as [|r rest0 b0 Hb S'|r rest0 b0 S' E1 E2]; subst; [congruence|]. rewrite <- E1 in HF. inversion HF as [|? ? Hb _]; subst. apply Hb, L, Ht.
Qed.
End Follow.
