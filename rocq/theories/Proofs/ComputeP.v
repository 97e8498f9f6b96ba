(** Proofs about the per-key work of reduce (Model/ReduceM.v, [compute_loop]). *)
From Coq Require Import Sorting.Sorted.
From Verif Require Export Base.Collections Model.ReduceM Proofs.ConsolidationP Proofs.HistoryP Proofs.LatticeP Proofs.ReplayP.
From Verif Require Import Base.Order.

(** ** Joins of lists of times *)
Section JoinsP.
Context {T : Type} {TT : Time T}.
Fixpoint joins (l : list T) : list T := match l with [] => [] | x :: l => x :: joins l ++ map (join x) (joins l) end.
Lemma joins_length l : S (length (joins l)) = 2 ^ length l.
Proof. induction l as [|x l IH]; auto. cbn [joins length Nat.pow]. rewrite app_length, map_length. lia. Qed.
Lemma joins_base l x : In x l -> In x (joins l).
Proof. induction l as [|y l IH]; simpl; [tauto|]. intros [->|H]; auto. right. apply in_app_iff. auto. Qed.
Lemma joins_closed l : forall a b, In a (joins l) -> In b (joins l) -> In (join a b) (joins l).
Proof.
  induction l as [|x l IH]; [simpl; tauto|]. cbn [joins]. intros a b Ha Hb.
  assert (J : forall j, In j (joins l) -> In (join x j) (x :: joins l ++ map (join x) (joins l))).
  { intros j Hj. right. apply in_app_iff. right. apply in_map; auto. }
  assert (J' : forall j, In j (joins l) -> In j (x :: joins l ++ map (join x) (joins l))).
  { intros j Hj. right. apply in_app_iff. auto. }
  destruct Ha as [<-|Ha]; [|apply in_app_iff in Ha; destruct Ha as [Ha|Ha]];
  (destruct Hb as [<-|Hb]; [|apply in_app_iff in Hb; destruct Hb as [Hb|Hb]]).
  - rewrite join_idem. left; auto.
  - apply J; auto.
  - apply in_map_iff in Hb. destruct Hb as (b' & <- & Hb). rewrite <- join_assoc, join_idem. auto.
  - rewrite join_comm. auto.
  - auto.
  - apply in_map_iff in Hb. destruct Hb as (b' & <- & Hb). rewrite <- join_assoc, (join_comm a x), join_assoc. auto.
  - apply in_map_iff in Ha. destruct Ha as (a' & <- & Ha). rewrite join_comm, <- join_assoc, join_idem. auto.
  - apply in_map_iff in Ha. destruct Ha as (a' & <- & Ha). rewrite join_assoc. auto.
  - apply in_map_iff in Ha. destruct Ha as (a' & <- & Ha). apply in_map_iff in Hb. destruct Hb as (b' & <- & Hb).
    rewrite join_swap_inner, join_idem. auto.
Qed.
End JoinsP.

(** ** Sorted lists *)
Section Sorted.
Context {A B : Type} {OB : Ord B} (f : A -> B).
Lemma prefix_eq x : forall l, StronglySorted (fun a b => le (f a) (f b)) l -> Forall (fun a => le x (f a)) l ->
  let k := prefix_len (fun a => eqb (f a) x) l in
  Forall (fun a => f a = x) (firstn k l) /\ Forall (fun a => lt x (f a)) (skipn k l).
Proof.
  induction l as [|a l IH]; simpl; intros S H; [split; constructor|]. inversion S as [|? ? S' HF]; subst. inversion H as [|? ? Ha Hl]; subst.
  destruct (eqb_spec (f a) x) as [E|N]; simpl.
  - destruct (IH S' Hl). split; auto.
  - split; [constructor|]. apply le_lteq in Ha. destruct Ha as [Ha|Ha]; [|congruence]. constructor; auto.
    eapply Forall_impl; [|exact HF]. intros b Hb. eapply lt_le_trans; eauto.
Qed.
End Sorted.
Lemma leading_prefix {T} {TT : Time T} (t : T) l : leading t l = prefix_len (fun x => eqb x t) l.
Proof. induction l as [|x l IH]; simpl; auto. destruct (eqb x t); congruence. Qed.
Lemma strictly_StronglySorted {A} {OA : Ord A} (l : list A) : strictly_sorted l -> StronglySorted le l.
Proof.
  induction l as [|x l IH]; [constructor|]. intros H. apply strictly_sorted_cons_inv in H. destruct H as [H HF].
  constructor; auto. eapply Forall_impl; [|exact HF]. intros; apply lt_le; auto.
Qed.

(** ** Buffers that stand for what has been replayed *)
Section BufferP.
Context {T : Type} {TT : Time T}.
Notation times l := (map (fun u => snd (fst u)) l).
Definition stands (cov : T -> Prop) (ts : list T) (t' : T) : Prop :=
  exists e, In e ts /\ tle e t' = true /\ forall x, cov x -> join t' x = join e x.
Lemma stands_mono (cov cov' : T -> Prop) ts ts' t' : (forall t, cov' t -> cov t) -> (forall e, In e ts -> In e ts') -> stands cov ts t' -> stands cov' ts' t'.
Proof. intros H I (e & H1 & H2 & H3). exists e; auto. Qed.
Lemma stands_self (cov : T -> Prop) ts t : In t ts -> stands cov ts t.
Proof. intros H. exists t. split; auto. split; auto. apply tle_refl. Qed.
Lemma stands_adv (cov : T -> Prop) ts t m : (forall t, cov t -> tle m t = true) -> stands cov ts t -> stands cov ts (join t m).
Proof.
  intros H (e & H1 & H2 & H3). exists e. split; auto. split; [eapply tle_trans; [exact H2|apply join_ub_l]|].
  intros x Hx. rewrite join_absorb_lower; auto.
Qed.
Lemma stands_le (cov : T -> Prop) ts t' x : cov x -> stands cov ts t' -> tle t' x = true -> exists e, In e ts /\ tle e x = true.
Proof. intros _ (e & H1 & H2 & _) H. exists e. split; auto. eapply tle_trans; eauto. Qed.
Lemma stands_back (cov : T -> Prop) e t' x : cov x -> stands cov [e] t' -> tle e x = true -> tle t' x = true.
Proof. intros Hx (e' & [<-|[]] & H2 & H3) H. apply join_eq_r. rewrite (H3 _ Hx). apply join_eq_r. auto. Qed.

Context {V R : Type} {OV : Ord V} {DR : Diff R}.
Notation update := (V * T * R)%type.
Record bufok (cov : T -> Prop) (buf ent : list update) : Prop := {
  bo_acc : forall v t, cov t -> acc buf v t = acc ent v t;
  bo_stands : Forall (fun u => stands cov (times ent) (snd (fst u))) buf
}.
Lemma bufok_nil cov : bufok cov [] [].
Proof. constructor; auto. Qed.
Lemma bufok_weaken (cov cov' : T -> Prop) buf ent : (forall t, cov' t -> cov t) -> bufok cov buf ent -> bufok cov' buf ent.
Proof. intros H [A S]. constructor; auto. eapply Forall_impl; [|exact S]. intros u; cbn beta. apply stands_mono; auto. Qed.
Lemma bufok_app cov buf ent us : bufok cov buf ent -> bufok cov (buf ++ us) (ent ++ us).
Proof.
  intros [A S]. constructor.
  - intros v t H. rewrite !acc_app, A; auto.
  - apply Forall_app. split.
    + eapply Forall_impl; [|exact S]. intros u; cbn beta. apply stands_mono; auto. intros e He. rewrite map_app. apply in_app_iff; auto.
    + apply Forall_forall. intros u Hu. apply stands_self. apply (in_map (fun u : update => snd (fst u))). apply in_app_iff; auto.
Qed.
Lemma consolidate_forall (P : T -> Prop) (l : list update) : Forall (fun u => P (snd (fst u))) l -> Forall (fun u => P (snd (fst u))) (consolidate (A:=V*T) l).
Proof.
  intros H. apply Forall_forall. intros u Hu. apply (in_map fst) in Hu. apply consolidate_incl in Hu.
  apply in_map_iff in Hu. destruct Hu as (w & E & Hw). rewrite <- E. rewrite Forall_forall in H. apply H; auto.
Qed.
Lemma bufok_consolidate cov buf ent : bufok cov buf ent -> bufok cov (consolidate (A:=V*T) buf) ent.
Proof.
  intros [A S]. constructor.
  - intros v t H. rewrite <- A; auto. apply acc_same_weights. apply consolidate_weight.
  - apply (consolidate_forall (fun t => stands cov (times ent) t)); auto.
Qed.
Lemma bufok_adv (cov : T -> Prop) buf ent m : (forall t, cov t -> tle m t = true) -> bufok cov buf ent -> bufok cov (map (advance_by_meet m) buf) ent.
Proof.
  intros H [A S]. constructor.
  - intros v t Ht. rewrite <- A; auto. specialize (H _ Ht). clear -H. induction buf as [|u buf IH]; auto. simpl. rewrite !acc_cons', IH. simpl.
    rewrite join_tle_b, H, andb_true_r. auto.
  - apply Forall_forall. intros u Hu. apply in_map_iff in Hu. destruct Hu as (w & <- & Hw). cbn. apply stands_adv; auto.
    rewrite Forall_forall in S. apply S; auto.
Qed.
Lemma bufok_advance (cov : T -> Prop) h ent m : (forall x, m = Some x -> forall t, cov t -> tle x t = true) -> bufok cov (vh_buffer h) ent -> bufok cov (vh_buffer (advance_if m h)) ent.
Proof. intros H B. destruct m as [m|]; auto. cbn. apply bufok_consolidate, bufok_adv; eauto. Qed.
(** if no buffered time is between [x] and [t], accumulations at [t] are those at [x] *)
Lemma acc_between (buf : list update) (x t : T) v : tle x t = true -> (forall u, In u buf -> tle (snd (fst u)) t = true -> tle (snd (fst u)) x = true) ->
  acc buf v t = acc buf v x.
Proof.
  intros Hxt H. induction buf as [|u buf IH]; auto. rewrite !acc_cons', IH by (intros; apply H; simpl; auto). f_equal.
  destruct (tle (snd (fst u)) t) eqn:E.
  - rewrite (H u); simpl; auto.
  - destruct (tle (snd (fst u)) x) eqn:E'; auto. rewrite (tle_trans _ _ _ E' Hxt) in E. discriminate.
Qed.
Lemma acc_none (buf : list update) t v : (forall u, In u buf -> tle (snd (fst u)) t = false) -> acc buf v t = dzero.
Proof. intros H. induction buf as [|u buf IH]; auto. rewrite acc_cons', IH by (intros; apply H; simpl; auto). rewrite (H u), andb_false_r, dplus_0_l; simpl; auto. Qed.
Lemma acc_at (us : list (V * R)) (x t : T) v : tle x t = true -> acc (map (fun vd => (fst vd, x, snd vd)) us) v t = weight us v.
Proof. intros H. induction us as [|u us IH]; auto. cbn [map]. rewrite acc_cons', IH, weight_cons'. cbn [fst snd]. rewrite H, andb_true_r. auto. Qed.
Lemma weight_values_at (l : list update) t v : weight (values_at t l) v = acc l v t.
Proof.
  unfold values_at. induction l as [|u l IH]; auto. cbn [filter]. rewrite acc_cons'. destruct (tle (snd (fst u)) t).
  - cbn [map]. rewrite weight_cons', IH. cbn [fst snd]. rewrite andb_true_r. auto.
  - rewrite IH, andb_false_r, dplus_0_l. auto.
Qed.
End BufferP.

(** ** Parts of one round *)
Section PartsP.
Context {T : Type} {TT : Time T}.
Notation times l := (map (fun u => snd (fst u)) l).
Lemma hist_step {V R} {OV : Ord V} {DR : Diff R} (h : ValueHistory V T R) rest x : replays h rest -> Forall (fun u => le x (snd (fst u))) rest ->
  exists now rest' h', vh_step_while_time_is h x = Some (negb (is_nil now), h') /\ rest = now ++ rest' /\ replays h' rest' /\
    vh_buffer h' = vh_buffer h ++ now /\ Forall (fun u => snd (fst u) = x) now /\ Forall (fun u => lt x (snd (fst u))) rest'.
Proof.
  intros H HL. unfold vh_step_while_time_is.
  destruct (replays_step_while (fun t' => eqb t' x) (length (vh_history h)) h rest H) as (k & h' & E & Ek & B & _ & R').
  { rewrite (replays_length _ _ H). auto. }
  destruct (prefix_eq (fun u : V * T * R => snd (fst u)) x rest (rp_sorted _ _ H) HL) as [P1 P2]. cbv beta zeta in P1, P2.
  exists (firstn k rest), (skipn k rest), h'. rewrite E. split.
  { assert (K : k <= length rest). { subst k. clear. induction rest as [|u l IH]; simpl; auto. destruct (eqb _ x); lia. }
    destruct k as [|k]; auto. destruct rest; [simpl in K; lia|]. reflexivity. }
  split; [rewrite firstn_skipn; auto|]. split; auto. split; auto. subst k. split; auto.
Qed.
Lemma list_step x (l : list T) : StronglySorted le l -> Forall (le x) l ->
  (0 <? leading x l) = negb (is_nil (firstn (leading x l) l)) /\ Forall (fun y => y = x) (firstn (leading x l) l) /\ Forall (lt x) (skipn (leading x l) l).
Proof.
  intros S H. rewrite leading_prefix. destruct (prefix_eq (fun y : T => y) x l S H) as [P1 P2]. split; auto.
  destruct (prefix_len _ l) as [|k] eqn:E; auto. destruct l; [simpl in E; discriminate|]. reflexivity.
Qed.
Lemma least_spec (l : list (option T)) : match least l with
  | None => Forall (fun o => o = None) l
  | Some x => In (Some x) l /\ Forall (fun o => forall y, o = Some y -> le x y) l end.
Proof.
  unfold least.
  assert (G : forall (l pre : list (option T)) a, match a with None => Forall (fun o => o = None) pre | Some x => In (Some x) pre /\ Forall (fun o => forall y, o = Some y -> le x y) pre end ->
    match fold_left (fun a o => match a, o with Some x, Some y => Some (if leb x y then x else y) | Some x, None => Some x | None, o => o end) l a with
    | None => Forall (fun o => o = None) (pre ++ l)
    | Some x => In (Some x) (pre ++ l) /\ Forall (fun o => forall y, o = Some y -> le x y) (pre ++ l) end).
  { clear l. induction l as [|o l IH]; intros pre a H; cbn [fold_left]; [rewrite app_nil_r; auto|].
    assert (E : pre ++ o :: l = (pre ++ [o]) ++ l) by (rewrite <- app_assoc; auto). rewrite E. apply IH. clear IH E. destruct a as [x|], o as [y|].
    - destruct H as [H1 H2]. destruct (leb x y) eqn:L.
      + split; [apply in_app_iff; auto|]. apply Forall_app. split; auto. constructor; auto. intros z Hz. inversion Hz; subst. apply leb_le; auto.
      + split; [apply in_app_iff; simpl; auto|]. apply leb_gt in L. apply Forall_app. split.
        * eapply Forall_impl; [|exact H2]. intros o Ho z Hz. apply lt_le. eapply lt_le_trans; [exact L|auto].
        * constructor; auto. intros z Hz. inversion Hz; subst. apply le_refl.
    - destruct H as [H1 H2]. split; [apply in_app_iff; auto|]. apply Forall_app. split; auto. constructor; auto. discriminate.
    - split; [apply in_app_iff; simpl; auto|]. apply Forall_app. split.
      + eapply Forall_impl; [|exact H]. intros o -> z Hz. discriminate.
      + constructor; auto. intros z Hz. inversion Hz; subst. apply le_refl.
    - apply Forall_app. auto. }
  apply (G l [] None). constructor.
Qed.
Lemma suffix_meet_hd (l : list T) : match hd_error (suffix_meet l) with Some m => Forall (fun t => tle m t = true) l | None => l = [] end.
Proof.
  induction l as [|t l IH]; [reflexivity|]. cbn [suffix_meet]. destruct (suffix_meet l) as [|m ms]; cbn [hd_error] in *.
  - subst. constructor; [apply tle_refl|constructor].
  - constructor; [apply meet_lb_l|]. eapply Forall_impl; [|exact IH]. intros y Hy. eapply tle_trans; [apply meet_lb_r|exact Hy].
Qed.
Lemma suffix_meet_skipn j : forall (l : list T), skipn j (suffix_meet l) = suffix_meet (skipn j l).
Proof.
  induction j as [|j IH]; auto. intros [|t l]; auto. cbn [suffix_meet skipn]. rewrite <- IH. destruct (suffix_meet l) eqn:E; [|reflexivity].
  destruct j; reflexivity.
Qed.
Definition bounds (m : option T) (l : list T) : Prop := forall x, m = Some x -> Forall (fun t => tle x t = true) l.
Lemma update_meet_bounds m o l l' : bounds m l -> bounds o l' -> (m = None -> l = []) -> (o = None -> l' = []) ->
  bounds (update_meet m o) (l ++ l') /\ (update_meet m o = None -> l ++ l' = []).
Proof.
  intros H1 H2 N1 N2. destruct m as [m|], o as [o|]; cbn [update_meet].
  - split; [|discriminate]. intros x Hx. inversion Hx; subst. apply Forall_app. split.
    + eapply Forall_impl; [|apply (H1 _ eq_refl)]. intros t Ht. eapply tle_trans; [apply meet_lb_l|exact Ht].
    + eapply Forall_impl; [|apply (H2 _ eq_refl)]. intros t Ht. eapply tle_trans; [apply meet_lb_r|exact Ht].
  - rewrite (N2 eq_refl), app_nil_r. split; auto.
  - rewrite (N1 eq_refl). split; auto.
  - rewrite (N1 eq_refl), (N2 eq_refl). split; auto. discriminate.
Qed.
Lemma vh_meet_bounds {V R} {OV : Ord V} {DR : Diff R} (h : ValueHistory V T R) rest : replays h rest -> bounds (vh_meet h) (times rest) /\ (vh_meet h = None -> times rest = []).
Proof.
  intros H. pose proof (replays_meet _ _ H) as M. destruct (vh_meet h) as [m|].
  - split; [|discriminate]. intros x Hx. inversion Hx; subst. destruct M as [_ M]. apply Forall_map. apply M. apply tle_refl.
  - subst. split; auto. intros x Hx. discriminate.
Qed.
Lemma fold_meet_bounds l : forall m l0, bounds m l0 -> (m = None -> l0 = []) ->
  bounds (fold_left (fun m t => update_meet m (Some t)) l m) (l0 ++ l) /\ (fold_left (fun m t => update_meet m (Some t)) l m = None -> l0 ++ l = []).
Proof.
  induction l as [|t l IH]; intros m l0 H N; cbn [fold_left]; [rewrite app_nil_r; auto|].
  destruct (update_meet_bounds m (Some t) l0 [t] H) as [H1 H2]; auto; try discriminate.
  { intros x Hx. inversion Hx; subst. constructor; auto. apply tle_refl. }
  destruct (IH _ _ H1 H2) as [H3 H4]. rewrite <- app_assoc in H3, H4. auto.
Qed.
Lemma sort_dedup_in {A} {OA : Ord A} (l : list A) y : In y (sort_dedup l) <-> In y l.
Proof. unfold sort_dedup. rewrite dedup_osort_in, dedup_in. tauto. Qed.
Lemma sort_dedup_sorted {A} {OA : Ord A} (l : list A) : strictly_sorted (sort_dedup l).
Proof. apply dedup_osort_sorted. Qed.
Lemma joins_with_in x ts y : In y (joins_with x ts) <-> exists t, In t ts /\ tle t x = false /\ y = join t x.
Proof.
  unfold joins_with. rewrite in_map_iff. setoid_rewrite filter_In. split.
  - intros (t & <- & H & N). exists t. apply negb_true_iff in N. auto.
  - intros (t & H & N & ->). exists t. rewrite N. auto.
Qed.
Lemma joins_with_gt x ts y : In y (joins_with x ts) -> lt x y /\ tle x y = true.
Proof.
  intros H. apply joins_with_in in H. destruct H as (t & _ & N & ->). split; [|apply join_ub_r].
  destruct (proj1 (le_lteq _ _) (tle_le _ _ (join_ub_r t x))) as [L|E]; auto. exfalso.
  symmetry in E. apply join_eq_r in E. congruence.
Qed.
(** positions among the outputs *)
Context {V R : Type}.
Lemma last_position_fst x (o1 : list (T * list (V * T * R))) : forall o2 : list (T * list (V * T * R)), map fst o1 = map fst o2 -> last_position x o1 = last_position x o2.
Proof.
  induction o1 as [|[t l] o1 IH]; intros [|[t' l'] o2] E; try discriminate; auto. simpl in E. inversion E; subst. cbn [last_position].
  rewrite (IH o2); auto.
Qed.
Lemma last_position_some x (o : list (T * list (V * T * R))) : (exists h, In h (map fst o) /\ tle h x = true) -> exists i, last_position x o = Some i.
Proof.
  induction o as [|[t l] o IH]; intros (h & Hh & L); [destruct Hh|]. cbn [last_position]. destruct (last_position x o) as [i|] eqn:E; [eauto|].
  destruct Hh as [<-|Hh]; [cbn [fst] in L; rewrite L; eauto|]. destruct IH as [i Hi]; [eauto|]. congruence.
Qed.
Lemma last_position_spec x (o : list (T * list (V * T * R))) i : last_position x o = Some i ->
  (exists t l, nth_error o i = Some (t, l) /\ tle t x = true) /\ forall j t l, nth_error o j = Some (t, l) -> i < j -> tle t x = false.
Proof.
  revert i. induction o as [|[t l] o IH]; intros i E; [discriminate|]. cbn [last_position] in E. destruct (last_position x o) as [i'|] eqn:E'.
  - inversion E; subst. destruct (IH _ eq_refl) as [(t1 & l1 & N1 & L1) H]. split; [exists t1, l1; auto|].
    intros [|j] t2 l2 Hj Hlt; [lia|]. eapply H; [exact Hj|lia].
  - destruct (tle t x) eqn:L; [|discriminate]. inversion E; subst. split; [exists t, l; auto|].
    intros [|j] t2 l2 Hj Hlt; [lia|]. cbn in Hj. destruct (tle t2 x) eqn:L2; auto. exfalso.
    destruct (last_position_some x o) as [k Hk]; [|congruence]. exists t2. split; auto.
    apply (in_map fst) with (x := (t2, l2)). eapply nth_error_In; eauto.
Qed.
Lemma push_output_fst us : forall i (o : list (T * list (V * T * R))), map fst (push_output i us o) = map fst o.
Proof. induction i as [|i IH]; intros [|[t l] o]; cbn; auto. rewrite IH; auto. Qed.
Lemma push_output_nth us : forall i (o : list (T * list (V * T * R))) j, nth_error (push_output i us o) j =
  option_map (fun x => if j =? i then (fst x, snd x ++ us) else x) (nth_error o j).
Proof.
  induction i as [|i IH]; intros [|[t l] o] [|j]; cbn; auto.
  - destruct (nth_error o j); auto.
Qed.
End PartsP.
