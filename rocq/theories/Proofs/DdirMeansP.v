(** The meaning of scope trees: closed under the choice of lists for collections, and unique. *)
From Verif Require Export Proofs.DdirP Proofs.BilinearP.
From Verif Require Import Spec.PointStampSpec.
From Verif Require Import Base.Collections Base.Arrays Base.Order.
Local Open Scope nat_scope.

Local Notation always := (fun _ : itime => True).
Local Notation agr := (agree (D:=row) (T:=itime) (R:=Z)).
Lemma same_coll_agree P (c1 c2 : coll) : same_coll c1 c2 -> agr P c1 c2. Proof. apply same_agree. Qed.
Lemma agree_same_coll (c1 c2 : coll) : agr always c1 c2 <-> same_coll c1 c2. Proof. apply agree_all. Qed.
Lemma down_always : down always. Proof. intros ? ? _ _; auto. Qed.
Lemma same_coll_refl c : same_coll c c. Proof. apply same_weights_refl. Qed.
Lemma same_coll_sym c1 c2 : same_coll c1 c2 -> same_coll c2 c1. Proof. apply same_weights_sym. Qed.
Lemma same_coll_trans c1 c2 c3 : same_coll c1 c2 -> same_coll c2 c3 -> same_coll c1 c3. Proof. apply same_weights_trans. Qed.

(** ** Linear operators *)
Definition coef ops level (a x : row * itime) : Z :=
  weight (A:=row*itime) (map (fun y => (fst (fst y), join (snd a) (snd (fst y)), snd y))
            (quiet_ops level (iter_at_level level (snd a)) ops [(fst a, tmin, 1%Z)])) x.
Lemma weight_times (r : Z) (l : list (row * itime * Z)) (t : itime) x :
  weight (A:=row*itime) (map (fun y => (fst (fst y), join t (snd (fst y)), (r * snd y)%Z)) l) x =
  (r * weight (A:=row*itime) (map (fun y => (fst (fst y), join t (snd (fst y)), snd y)) l) x)%Z.
Proof.
  induction l as [|y l IH]; cbn [map]; [rewrite !weight_nil; simpl; lia|]. rewrite !weight_cons', IH. cbn [fst snd].
  destruct (eqb _ _); cbn [dplus dzero Diff_Z]; lia.
Qed.
Lemma linear_weight ops level (c : coll) x : weight (A:=row*itime) (linear_of ops level c) x = lsum (fun a r => (r * coef ops level a x)%Z) c.
Proof.
  induction c as [|u c IH]; [reflexivity|]. cbn [linear_of flat_map]. rewrite weight_app, weight_times. unfold linear_of in IH. rewrite IH. reflexivity.
Qed.
Lemma weight_late (t : itime) (l : list (row * itime * Z)) d t' : tle t t' = false ->
  weight (A:=row*itime) (map (fun y => (fst (fst y), join t (snd (fst y)), snd y)) l) (d, t') = 0%Z.
Proof.
  intros H. refine (weight_notin (A:=row*itime) (R:=Z) _ _ _). rewrite map_map. intros Hi. apply in_map_iff in Hi as (y & E & _). pose proof (f_equal snd E) as E'. cbn [fst snd] in E'. clear E.
  assert (tle t t' = true) by (rewrite <- E'; apply join_ub_l). congruence.
Qed.
Lemma linear_agree P ops level c1 c2 : down P -> agr P c1 c2 -> agr P (linear_of ops level c1) (linear_of ops level c2).
Proof.
  intros HP H d t Ht. rewrite !linear_weight. apply (lsum_local _ (fun a => tle (snd a) t)).
  - intros a; simpl; lia.
  - intros a r1 r2; simpl; lia.
  - intros a r E. unfold coef. rewrite weight_late by auto. simpl; lia.
  - intros [d' t'] E. apply H. eapply HP; eauto.
Qed.

(** ** Join and reduce *)
Lemma joined_agree P p c1 c1' c2 c2' : down P -> agr P c1 c1' -> agr P c2 c2' -> agr P (joined_of p c1 c2) (joined_of p c1' c2').
Proof.
  intros HP H1 H2. apply acc_agree; auto. intros d t Ht. unfold joined_of.
  rewrite (acc_join_congr_r _ c1 c2 c2') by (intros; eapply agree_acc; eauto).
  apply acc_join_congr_l. intros; eapply agree_acc; eauto.
Qed.
Lemma reduced_agree P red c1 c2 o1 o2 : down P -> agr P c1 c2 -> reduced_to red c1 o1 -> reduced_to red c2 o2 -> agr P o1 o2.
Proof.
  intros HP H R1 R2. apply acc_agree; auto. intros [k v] t Ht.
  destruct (R1 k t) as (v1 & C1 & W1 & ->). destruct (R2 k t) as (v2 & C2 & W2 & ->).
  assert (v1 = v2) as ->; auto. apply consolidated_unique; auto. intros x. rewrite W1, W2. eapply agree_acc; eauto.
Qed.
Lemma reduced_closed red c1 c2 o1 o2 : same_coll c1 c2 -> same_coll o1 o2 -> reduced_to red c1 o1 -> reduced_to red c2 o2.
Proof.
  intros Hc Ho R k t. destruct (R k t) as (vals & C & W & O). exists vals. split; auto. split; intros v.
  - rewrite W. apply acc_same_weights; auto.
  - rewrite <- O. symmetry. apply acc_same_weights; auto.
Qed.

(** ** Moving in time *)
Definition moved_to (f : itime -> option itime) (t t' : itime) : bool := match f t with Some u => eqb u t' | None => false end.
Lemma at_times_weight f c l d t : at_times f c = Some l ->
  weight (A:=row*itime) l (d, t) = lsum (fun (a : row * itime) (r : Z) => if eqb (fst a) d && moved_to f (snd a) t then r else 0%Z) c.
Proof.
  unfold at_times. revert l. induction c as [|u c IH]; cbn [mapO]; intros l.
  - intros [= <-]. reflexivity.
  - destruct (f (snd (fst u))) as [t'|] eqn:E; [|discriminate]. match goal with |- context [mapO ?g c] => destruct (mapO g c) as [r|] eqn:Er end; [|discriminate]. intros [= <-].
    rewrite weight_cons'. pose proof (IH r eq_refl) as IH'. cbn [fst snd]. rewrite IH'. unfold lsum. cbn [map]. rewrite dsum_cons. unfold moved_to at 2. rewrite E. f_equal.
    destruct (eqb_spec (fst (fst u), t') (d, t)) as [Q|Q].
    + injection Q as -> ->. rewrite !eqb_refl. auto.
    + destruct (eqb_spec (fst (fst u)) d), (eqb_spec t' t); simpl; auto. congruence.
Qed.
Lemma at_times_agree (P Q : itime -> Prop) f c1 c2 l1 l2 : (forall t' t, f t' = Some t -> P t -> Q t') ->
  agr Q c1 c2 -> at_times f c1 = Some l1 -> at_times f c2 = Some l2 -> agr P l1 l2.
Proof.
  intros Hf H E1 E2 d t Ht. rewrite (at_times_weight _ _ _ _ _ E1), (at_times_weight _ _ _ _ _ E2).
  apply (lsum_local _ (fun a => moved_to f (snd a) t)).
  - intros a; destruct (_ && _); auto.
  - intros a r1 r2; destruct (_ && _); auto.
  - intros a r Ea. rewrite Ea, andb_false_r; auto.
  - intros [d' t'] Ea. unfold moved_to in Ea; simpl in Ea. destruct (f t') as [u|] eqn:Eu; [|discriminate].
    pose proof (proj1 (eqb_eq _ _) Ea) as Q'. apply H. eapply Hf; eauto. rewrite Q'; auto.
Qed.
Lemma at_times_total f c : (forall t, f t <> None) -> exists l, at_times f c = Some l.
Proof.
  intros H. unfold at_times. induction c as [|u c (l & IH)]; simpl; [eauto|]. destruct (f (snd (fst u))) eqn:E; [|exfalso; eapply H; eauto]. rewrite IH. eauto.
Qed.
Lemma left_time_total level t : left_time (S level) t <> None. Proof. discriminate. Qed.

Local Notation crd t i := (coord (ps_vec (snd (t : itime))) i).
Lemma feedback_time_spec level t : exists t', feedback_time (S level) t = Some t' /\ fst t' = fst t /\
  (forall i, crd t' i = crd t i + (if i =? level then 1 else 0)).
Proof.
  unfold feedback_time, feedback_summary. set (s := {| retain := None; actions := repeat 0 level ++ [1] |}).
  destruct (pss_results_in (fun a b => Some (a + b)) s (ps_vec (snd t))) as [v|] eqn:E.
  - eexists. split; [reflexivity|]. split; [reflexivity|]. intros i. simpl. rewrite ps_new_coord.
    apply results_in_spec in E as (_ & E). specialize (E i). unfold coord_action in E. simpl in E.
    destruct (nth_error (repeat 0 level ++ [1]) i) as [a|] eqn:Ea.
    + injection E as <-. destruct (Nat.ltb_spec i level) as [Hi|Hi].
      * rewrite nth_error_app1 in Ea by (rewrite repeat_length; auto). apply nth_error_In, repeat_spec in Ea. subst.
        destruct (Nat.eqb_spec i level); lia.
      * rewrite nth_error_app2 in Ea by (rewrite repeat_length; auto). rewrite repeat_length in Ea.
        destruct (i - level) as [|k] eqn:Ek; simpl in Ea; [|destruct k; discriminate]. injection Ea as <-.
        destruct (Nat.eqb_spec i level); lia.
    + injection E as <-. apply nth_error_None in Ea. rewrite app_length, repeat_length in Ea. simpl in Ea.
      destruct (Nat.eqb_spec i level); lia.
  - exfalso. apply results_in_none in E as (i & E). unfold coord_action in E. simpl in E. destruct (nth_error _ i); discriminate.
Qed.
Lemma itime_tle (t t' : itime) : tle t t' = true <-> fst t <= fst t' /\ forall i, crd t i <= crd t' i.
Proof.
  change (tle t t') with (tle (fst t) (fst t') && ps_le (ps_vec (snd t)) (ps_vec (snd t'))). rewrite andb_true_iff, ps_le_spec.
  assert (N : forall a b : nat, tle a b = true <-> a <= b) by (intros a b; apply nat_tle). rewrite N.
  split; intros (H1 & H2); split; auto; intros i; apply N; auto.
Qed.
Lemma left_time_spec level t t' : left_time (S level) t = Some t' -> fst t' = fst t /\ forall i, crd t' i = if i <? level then crd t i else 0.
Proof. simpl. intros [= <-]. simpl. split; auto. intros i. rewrite ps_new_coord, coord_firstn. auto. Qed.

(** ** Nodes *)
Lemma mapO_cons_inv {A B} (f : A -> option B) x l ys : mapO f (x :: l) = Some ys -> exists y r, ys = y :: r /\ f x = Some y /\ mapO f l = Some r.
Proof. simpl. destruct (f x) as [y|]; [|discriminate]. destruct (mapO f l) as [r|]; [|discriminate]. intros [= <-]. eauto. Qed.
Lemma mapO_look (look1 look2 : Ref -> option coll) rs cs (rel : coll -> coll -> Prop) :
  (forall r c, In r rs -> look1 r = Some c -> exists c', look2 r = Some c' /\ rel c c') -> mapO look1 rs = Some cs ->
  exists cs', mapO look2 rs = Some cs' /\ Forall2 rel cs cs'.
Proof.
  revert cs. induction rs as [|r rs IH]; simpl; intros cs H.
  - intros [= <-]. exists []. split; auto.
  - destruct (look1 r) as [c|] eqn:E; [|discriminate]. destruct (mapO look1 rs) as [cs0|] eqn:E0; [|discriminate]. intros [= <-].
    destruct (H r c (or_introl eq_refl) E) as (c' & -> & Hc). destruct (IH cs0) as (cs' & -> & Hcs); auto.
    exists (c' :: cs'). split; auto.
Qed.
Lemma concat_agree P cs cs' : Forall2 (agr P) cs cs' -> agr P (concat cs) (concat cs').
Proof. induction 1; simpl; [apply agree_refl|apply agree_app; auto]. Qed.

Definition looks_like (rel : coll -> coll -> Prop) (rs : list Ref) (look1 look2 : Ref -> option coll) : Prop :=
  forall r c, In r rs -> look1 r = Some c -> exists c', look2 r = Some c' /\ rel c c'.

Lemma node_closed depth look1 look2 n o1 o2 : looks_like same_coll (node_refs n) look1 look2 -> same_coll o1 o2 ->
  node_means depth look1 n o1 -> node_means depth look2 n o2.
Proof.
  intros HL Ho. destruct n as [r ops|rs|r|l r p|r red|r lab]; simpl in *.
  - intros (c & E & H). destruct (HL r c (or_introl eq_refl) E) as (c' & -> & Hc). exists c'. split; auto.
    eapply same_coll_trans; [apply same_coll_sym, Ho|]. eapply same_coll_trans; [exact H|].
    apply agree_same_coll, linear_agree; [apply down_always|]. apply agree_same_coll; auto.
  - intros (cs & E & Hn & H). destruct (mapO_look look1 look2 rs cs same_coll HL E) as (cs' & -> & Hc). exists cs'. split; auto. split.
    + destruct Hc; congruence.
    + eapply same_coll_trans; [apply same_coll_sym, Ho|]. eapply same_coll_trans; [exact H|].
      apply agree_same_coll, concat_agree. clear -Hc. induction Hc; constructor; auto. apply agree_same_coll; auto.
  - intros (c & E & H). destruct (HL r c (or_introl eq_refl) E) as (c' & -> & Hc). exists c'. split; auto.
    eapply same_coll_trans; [apply same_coll_sym, Ho|]. eapply same_coll_trans; eauto.
  - intros (c1 & c2 & E1 & E2 & H). destruct (HL l c1 (or_introl eq_refl) E1) as (c1' & -> & Hc1).
    destruct (HL r c2 (or_intror (or_introl eq_refl)) E2) as (c2' & -> & Hc2). exists c1', c2'. split; auto. split; auto.
    eapply same_coll_trans; [apply same_coll_sym, Ho|]. eapply same_coll_trans; [exact H|].
    apply agree_same_coll, joined_agree; [apply down_always|apply agree_same_coll; auto..].
  - intros (c & E & H). destruct (HL r c (or_introl eq_refl) E) as (c' & -> & Hc). exists c'. split; auto. eapply reduced_closed; eauto.
  - intros (c & E & H). destruct (HL r c (or_introl eq_refl) E) as (c' & -> & Hc). exists c'. split; auto.
    eapply same_coll_trans; [apply same_coll_sym, Ho|]. eapply same_coll_trans; eauto.
Qed.

Lemma node_agree P depth look1 look2 n o1 o2 : down P ->
  (forall r c1 c2, In r (node_refs n) -> look1 r = Some c1 -> look2 r = Some c2 -> agr P c1 c2) ->
  node_means depth look1 n o1 -> node_means depth look2 n o2 -> agr P o1 o2.
Proof.
  intros HP HL. destruct n as [r ops|rs|r|l r p|r red|r lab]; simpl in *.
  - intros (c1 & E1 & H1) (c2 & E2 & H2). eapply agree_trans; [apply same_coll_agree, H1|].
    eapply agree_trans; [|apply agree_sym, same_coll_agree, H2]. apply linear_agree; auto. eapply HL; eauto.
  - intros (cs1 & E1 & _ & H1) (cs2 & E2 & _ & H2). eapply agree_trans; [apply same_coll_agree, H1|].
    eapply agree_trans; [|apply agree_sym, same_coll_agree, H2]. apply concat_agree. clear H1 H2.
    revert cs1 cs2 E1 E2. induction rs as [|r rs IH]; intros cs1 cs2.
    + intros [= <-] [= <-]. constructor.
    + intros Q1 Q2. apply mapO_cons_inv in Q1 as (x1 & l1 & -> & L1 & M1). apply mapO_cons_inv in Q2 as (x2 & l2 & -> & L2 & M2).
      constructor; [eapply HL; eauto; left; auto|]. apply IH; auto. intros; eapply HL; eauto. right; auto.
  - intros (c1 & E1 & H1) (c2 & E2 & H2). eapply agree_trans; [apply same_coll_agree, H1|].
    eapply agree_trans; [|apply agree_sym, same_coll_agree, H2]. eapply HL; eauto.
  - intros (c1 & d1 & E1 & F1 & H1) (c2 & d2 & E2 & F2 & H2). eapply agree_trans; [apply same_coll_agree, H1|].
    eapply agree_trans; [|apply agree_sym, same_coll_agree, H2]. apply joined_agree; auto; [eapply (HL l)|eapply (HL r)]; eauto.
  - intros (c1 & E1 & H1) (c2 & E2 & H2). eapply reduced_agree; [exact HP| |exact H1|exact H2]. eapply HL; eauto.
  - intros (c1 & E1 & H1) (c2 & E2 & H2). eapply agree_trans; [apply same_coll_agree, H1|].
    eapply agree_trans; [|apply agree_sym, same_coll_agree, H2]. eapply HL; eauto.
Qed.

(** ** Scopes *)
Fixpoint scope_ind' (P : Scope -> Prop) (H : forall s, (forall c, In (ISub c) (sc_items s) -> P c) -> P s) (s : Scope) {struct s} : P s.
Proof.
  apply H. destruct s as [nm ims vs its bs es]. simpl. revert its. fix go 1. intros its c. destruct its as [|it its]; simpl; [intros []|].
  intros [E|Hi].
  - destruct it as [n|c']; [discriminate|]. injection E as <-. apply (scope_ind' P H).
  - apply (go its). exact Hi.
Defined.

Definition item_means (depth : nat) (imports vars : list coll) (vals : list rvalue) (n : nat) (it : Item) : Prop :=
  let before := resolve (firstn n vals) imports vars in
  match it with
  | IOp node => exists c, nth_error vals n = Some (VOp c) /\ node_means depth before node c
  | ISub child =>
      exists ims exs outs, nth_error vals n = Some (VSub outs) /\
        imported before (sc_imports child) = Some ims /\ scope_means (S depth) child ims exs /\
        Forall2 (fun e o => exists l, at_times (left_time (S depth)) e = Some l /\ same_coll o l) exs outs
  end.
Definition bind_means (depth : nat) (look : Ref -> option coll) (bs : list Bind) (v : nat) (c : coll) : Prop :=
  match find (fun b => bi_var b =? v) bs with
  | Some b => exists src l, look (bi_value b) = Some src /\ at_times (feedback_time depth) src = Some l /\ same_coll c l
  | None => same_coll c []
  end.

Lemma scope_means_iff depth s imports exports : scope_means depth s imports exports <->
  exists (vars : list coll) (vals : list rvalue),
    length vars = length (sc_vars s) /\
    (length vals = length (sc_items s) /\ forall n it, nth_error (sc_items s) n = Some it -> item_means depth imports vars vals n it) /\
    (Forall (fun b => bi_var b < length (sc_vars s)) (sc_binds s) /\ NoDup (map bi_var (sc_binds s))) /\
    (forall v c, nth_error vars v = Some c -> bind_means depth (resolve vals imports vars) (sc_binds s) v c) /\
    (sc_vars s <> [] -> depth <> 0) /\
    exists outs, mapO (fun e => resolve vals imports vars (ex_value e)) (sc_exports s) = Some outs /\ Forall2 same_coll outs exports.
Proof.
  destruct s as [nm ims vs its bs es]. cbn [scope_means sc_vars sc_items sc_binds sc_exports].
  assert (G : forall vars vals its n,
    (fix all (its : list Item) (n : nat) : Prop :=
       match its with
       | [] => length vals = n
       | it :: its => item_means depth imports vars vals n it /\ all its (S n)
       end) its n <->
    length vals = n + length its /\ forall i it, nth_error its i = Some it -> item_means depth imports vars vals (n + i) it).
  { intros vars vals. induction its0 as [|it its0 IH]; intros n.
    - simpl. rewrite Nat.add_0_r. split; [|tauto]. intros H; split; auto. intros i it E. destruct i; discriminate.
    - cbn beta match fix. rewrite IH. simpl length. rewrite Nat.add_succ_r. split.
      + intros (H1 & H2 & H3). split; auto. intros [|i] it' E; simpl in E.
        * injection E as <-. rewrite Nat.add_0_r. exact H1.
        * rewrite Nat.add_succ_r. apply (H3 i); auto.
      + intros (H1 & H2). split; [|split; auto].
        * specialize (H2 0 it eq_refl). rewrite Nat.add_0_r in H2. exact H2.
        * intros i it' E. specialize (H2 (S i) it' E). rewrite Nat.add_succ_r in H2. exact H2. }
  split; intros (vars & vals & H1 & H2 & H3); exists vars, vals; (split; [exact H1|]); (split; [apply (G vars vals its 0); exact H2|exact H3]).
Qed.

(** Renderings of the same scope agree wherever their imports do. *)
Definition stable (depth : nat) (P : itime -> Prop) : Prop :=
  forall t t', P t -> fst t' = fst t -> (forall i, i < depth -> crd t' i = crd t i) -> P t'.
Definition rv_agree (P : itime -> Prop) (v1 v2 : rvalue) : Prop :=
  match v1, v2 with VOp c1, VOp c2 => agr P c1 c2 | VSub e1, VSub e2 => Forall2 (agr P) e1 e2 | _, _ => False end.
Lemma Forall2_nth {A B} (R : A -> B -> Prop) l1 l2 i a b : Forall2 R l1 l2 -> nth_error l1 i = Some a -> nth_error l2 i = Some b -> R a b.
Proof.
  intros H; revert i. induction H as [|x y l1 l2 Hr _ IH]; intros [|i]; simpl; try discriminate; [|apply IH]. intros [= <-] [= <-]; auto.
Qed.
Lemma resolve_agree P vals1 vals2 ims1 ims2 vars1 vars2 r c1 c2 : Forall2 (rv_agree P) vals1 vals2 -> Forall2 (agr P) ims1 ims2 ->
  Forall2 (agr P) vars1 vars2 -> resolve vals1 ims1 vars1 r = Some c1 -> resolve vals2 ims2 vars2 r = Some c2 -> agr P c1 c2.
Proof.
  intros Hv Hi Hr. destruct r as [i|i|i|i j]; simpl.
  - destruct (nth_error vals1 i) as [[a|]|] eqn:E1; try discriminate. destruct (nth_error vals2 i) as [[b|]|] eqn:E2; try discriminate.
    intros [= <-] [= <-]. apply (Forall2_nth _ _ _ _ _ _ Hv E1 E2).
  - apply Forall2_nth; auto.
  - apply Forall2_nth; auto.
  - destruct (nth_error vals1 i) as [[|a]|] eqn:E1; try discriminate. destruct (nth_error vals2 i) as [[|b]|] eqn:E2; try discriminate.
    apply Forall2_nth. apply (Forall2_nth _ _ _ _ _ _ Hv E1 E2).
Qed.
Lemma mapO_agree {A} P (f g : A -> option coll) l c1 c2 : (forall x a b, In x l -> f x = Some a -> g x = Some b -> agr P a b) ->
  mapO f l = Some c1 -> mapO g l = Some c2 -> Forall2 (agr P) c1 c2.
Proof.
  revert c1 c2. induction l as [|x l IH]; intros c1 c2 H.
  - intros [= <-] [= <-]. constructor.
  - intros Q1 Q2. apply mapO_cons_inv in Q1 as (x1 & l1 & -> & L1 & M1). apply mapO_cons_inv in Q2 as (x2 & l2 & -> & L2 & M2).
    constructor; [eapply H; eauto; left; auto|]. apply IH; auto. intros; eapply H; eauto. right; auto.
Qed.
Lemma left_agree P depth e1 e2 o1 o2 : stable depth P -> Forall2 (agr P) e1 e2 ->
  Forall2 (fun e o => exists l, at_times (left_time (S depth)) e = Some l /\ same_coll o l) e1 o1 ->
  Forall2 (fun e o => exists l, at_times (left_time (S depth)) e = Some l /\ same_coll o l) e2 o2 -> Forall2 (agr P) o1 o2.
Proof.
  intros HS H. revert o1 o2. induction H as [|a b e1 e2 Hab _ IH]; intros o1 o2 H1 H2.
  { inversion H1; inversion H2; constructor. }
  inversion H1 as [|? x1 ? r1 A1 A2]; inversion H2 as [|? x2 ? r2 A3 A4]; subst; constructor.
  - destruct A1 as (l & E & Ho). destruct A3 as (l' & E' & Ho'). eapply agree_trans; [apply same_coll_agree, Ho|].
    eapply agree_trans; [|apply agree_sym, same_coll_agree, Ho'].
    apply (at_times_agree P P (left_time (S depth)) a b); auto. intros t' t Ef Ht. apply left_time_spec in Ef as (F1 & F2).
    apply (HS t t'); auto. intros i Hi. rewrite F2. destruct (Nat.ltb_spec i depth); auto; lia.
  - apply IH; auto.
Qed.
Lemma firstn_snoc {A} n (l : list A) x : nth_error l n = Some x -> firstn (S n) l = firstn n l ++ [x].
Proof. revert l. induction n as [|n IH]; intros [|a l]; simpl; try discriminate; [intros [= ->]; auto|]. intros E. f_equal. apply IH; auto. Qed.

Theorem scope_unique s : forall depth P ims1 ims2 ex1 ex2, down P -> stable depth P -> Forall2 (agr P) ims1 ims2 ->
  scope_means depth s ims1 ex1 -> scope_means depth s ims2 ex2 -> Forall2 (agr P) ex1 ex2.
Proof.
  induction s as [s IHs] using scope_ind'. intros depth P ims1 ims2 ex1 ex2 HP HS Hims M1 M2.
  apply scope_means_iff in M1 as (vars1 & vals1 & L1 & (N1 & I1) & (B1 & B1') & V1 & D1 & o1 & O1 & X1).
  apply scope_means_iff in M2 as (vars2 & vals2 & L2 & (N2 & I2) & _ & V2 & _ & o2 & O2 & X2).
  assert (Items : forall Q, down Q -> stable depth Q -> (forall t, Q t -> P t) -> Forall2 (agr Q) vars1 vars2 -> Forall2 (rv_agree Q) vals1 vals2).
  { intros Q HQ SQ QP Hv. assert (HiQ : Forall2 (agr Q) ims1 ims2).
    { clear -QP Hims. induction Hims; constructor; auto. intros d t Ht; auto. }
    assert (G : forall n, n <= length (sc_items s) -> Forall2 (rv_agree Q) (firstn n vals1) (firstn n vals2)).
    { induction n as [|n IHn]; intros Hn; [constructor|]. specialize (IHn ltac:(lia)).
      destruct (nth_error (sc_items s) n) as [it|] eqn:Eit; [|apply nth_error_None in Eit; lia].
      pose proof (I1 n it Eit) as J1. pose proof (I2 n it Eit) as J2. destruct it as [node|child]; simpl in J1, J2.
      - destruct J1 as (c1 & F1 & K1). destruct J2 as (c2 & F2 & K2). rewrite (firstn_snoc _ _ _ F1), (firstn_snoc _ _ _ F2).
        apply Forall2_app; auto. constructor; auto. simpl. eapply node_agree; [exact HQ| |exact K1|exact K2].
        intros r a b _. apply resolve_agree; auto.
      - destruct J1 as (i1 & e1 & u1 & F1 & G1 & K1 & W1). destruct J2 as (i2 & e2 & u2 & F2 & G2 & K2 & W2).
        rewrite (firstn_snoc _ _ _ F1), (firstn_snoc _ _ _ F2). apply Forall2_app; auto. constructor; auto. simpl.
        apply (left_agree Q depth e1 e2); auto. apply (IHs child) with (depth := S depth) (ims1 := i1) (ims2 := i2); auto.
        + eapply nth_error_In; eauto.
        + intros t t' Ht Hf Hc. apply (SQ t t'); auto.
        + eapply mapO_agree; [|exact G1|exact G2]. intros im a b _. simpl. destruct (im_from im); try discriminate. apply resolve_agree; auto. }
    specialize (G (length (sc_items s)) (Nat.le_refl _)). rewrite <- N1 in G at 1. rewrite <- N2, !firstn_all in G. exact G. }
  assert (Vars : Forall2 (agr P) vars1 vars2).
  { destruct depth as [|d].
    - destruct (sc_vars s) as [|v vs]; [|exfalso; apply D1; congruence]. destruct vars1, vars2; try discriminate. constructor.
    - set (Q := fun k (t : itime) => P t /\ crd t d < k).
      assert (DQ : forall k, down (Q k)). { intros k t t' Ht (Pt & Kt). split; [eapply HP; eauto|]. apply itime_tle in Ht as (_ & Ht). specialize (Ht d). lia. }
      assert (SQ : forall k, stable (S d) (Q k)).
      { intros k t t' (Pt & Kt) Hf Hc. split; [apply (HS t t'); auto|]. rewrite Hc; auto. }
      assert (G : forall k, Forall2 (agr (Q k)) vars1 vars2).
      { induction k as [|k IHk].
        - assert (Len : length vars1 = length vars2) by congruence. clear -Len. revert vars2 Len. induction vars1 as [|a l IH]; intros [|b m] Len; try discriminate; constructor; auto.
          intros x t (_ & Ht). lia.
        - pose proof (Items (Q k) (DQ k) (SQ k) (fun t Ht => proj1 Ht) IHk) as Hvals.
          assert (HiQ : Forall2 (agr (Q k)) ims1 ims2).
          { clear -Hims. induction Hims; constructor; auto. intros x0 t (Ht & _); auto. }
          assert (Each : forall v c1 c2, nth_error vars1 v = Some c1 -> nth_error vars2 v = Some c2 -> agr (Q (S k)) c1 c2).
          { intros v c1 c2 E1 E2. pose proof (V1 v c1 E1) as J1. pose proof (V2 v c2 E2) as J2. unfold bind_means in J1, J2.
            destruct (find _ (sc_binds s)) as [b|].
            - destruct J1 as (s1 & l1 & F1 & T1 & W1). destruct J2 as (s2 & l2 & F2 & T2 & W2).
              eapply agree_trans; [apply same_coll_agree, W1|]. eapply agree_trans; [|apply agree_sym, same_coll_agree, W2].
              apply (at_times_agree _ (Q k) (feedback_time (S d)) s1 s2); auto.
              + intros t' t Ef (Pt & Kt). destruct (feedback_time_spec d t') as (u & Eu & Fu & Cu). rewrite Ef in Eu. injection Eu as <-.
                split.
                * apply (HP t' t); auto. apply itime_tle. split; [lia|]. intros i. rewrite Cu. lia.
                * rewrite Cu, Nat.eqb_refl in Kt. lia.
              + apply (resolve_agree (Q k) vals1 vals2 ims1 ims2 vars1 vars2 (bi_value b)); auto.
            - eapply agree_trans; [apply same_coll_agree, J1|]. apply agree_sym, same_coll_agree, J2. }
          assert (Len : length vars1 = length vars2) by congruence. clear -Each Len. revert vars2 Len Each.
          induction vars1 as [|a l IH]; intros [|b m] Len Each; try discriminate; constructor.
          + apply (Each 0); auto.
          + apply IH; auto. intros v. apply (Each (S v)). }
      assert (Each : forall v c1 c2, nth_error vars1 v = Some c1 -> nth_error vars2 v = Some c2 -> agr P c1 c2).
      { intros v c1 c2 E1 E2 x t Ht. apply (Forall2_nth _ _ _ _ _ _ (G (S (crd t d))) E1 E2). split; auto. }
      assert (Len : length vars1 = length vars2) by congruence. clear -Each Len. revert vars2 Len Each.
      induction vars1 as [|a l IH]; intros [|b m] Len Each; try discriminate; constructor.
      + apply (Each 0); auto.
      + apply IH; auto. intros v. apply (Each (S v)). }
  pose proof (Items P HP HS (fun t Ht => Ht) Vars) as Hvals.
  assert (Ho : Forall2 (agr P) o1 o2).
  { eapply mapO_agree; [|exact O1|exact O2]. intros e a b _. apply resolve_agree; auto. }
  clear -Ho X1 X2. revert ex1 ex2 X1 X2. induction Ho as [|a b o1 o2 Hab _ IH]; intros ex1 ex2 X1 X2; inversion X1; inversion X2; subst; constructor; auto.
  eapply agree_trans; [apply agree_sym, same_coll_agree; eassumption|]. eapply agree_trans; [exact Hab|apply same_coll_agree; auto].
Qed.

Theorem program_unique s inputs traces ex1 ex2 : program_means s inputs traces ex1 -> program_means s inputs traces ex2 -> Forall2 same_coll ex1 ex2.
Proof.
  intros (i1 & E1 & M1) (i2 & E2 & M2). rewrite E1 in E2. injection E2 as <-.
  assert (H : Forall2 (agr always) ex1 ex2).
  { apply (scope_unique s 0 always i1 i1); auto.
    - intros ? ? _ _; exact I.
    - intros ? ? _ _ _; exact I.
    - clear. induction i1; constructor; auto. apply agree_refl. }
  clear -H. induction H; constructor; auto. apply agree_same_coll; auto.
Qed.
