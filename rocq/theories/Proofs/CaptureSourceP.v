From Verif Require Export Spec.CaptureSourceSpec Proofs.CaptureP.
From Verif Require Import Base.Collections.

(** ** Lists and maps from workers *)
Lemma set_at_same {A} (f : nat -> A) w x : set_at f w x w = x.
Proof. unfold set_at. rewrite Nat.eqb_refl. auto. Qed.
Lemma set_at_other {A} (f : nat -> A) w x v : v <> w -> set_at f w x v = f v.
Proof. intros H. unfold set_at. apply Nat.eqb_neq in H. rewrite H. auto. Qed.
Lemma set_at_cases {A} (f : nat -> A) w x v : (v = w /\ set_at f w x v = x) \/ (v <> w /\ set_at f w x v = f v).
Proof. destruct (Nat.eq_dec v w) as [->|H]; [left; split; auto; apply set_at_same|right; split; auto; apply set_at_other; auto]. Qed.
Lemma picks_perm {A} ks : forall (l : list A) a b, picks ks l = (a, b) -> Permutation l (a ++ b).
Proof.
  induction ks as [|k ks IH]; intros l a b H; cbn [picks] in H; [inversion H; subst; auto|].
  destruct (nth_error l k) as [x|] eqn:En; [|auto]. destruct (picks ks (firstn k l ++ skipn (S k) l)) as [taken rest] eqn:Ep. inversion H; subst.
  apply IH in Ep. cbn [app]. rewrite <- Ep. apply nth_error_split in En as (l1 & l2 & -> & Hk). rewrite <- Hk.
  rewrite firstn_app, firstn_all, Nat.sub_diag. cbn [firstn]. rewrite app_nil_r.
  replace (skipn (S (length l1)) (l1 ++ x :: l2)) with l2; [symmetry; apply Permutation_middle|].
  change (x :: l2) with ([x] ++ l2). rewrite app_assoc, skipn_app, app_length. cbn [length]. rewrite skipn_all2 by (rewrite app_length; cbn [length]; lia).
  replace (S (length l1) - (length l1 + 1)) with 0 by lia. auto.
Qed.
Lemma nth_error_remove {A} (l : list A) k x : nth_error l k = Some x -> Permutation l (x :: firstn k l ++ skipn (S k) l).
Proof. intros H. apply (picks_perm [k] l [x] (firstn k l ++ skipn (S k) l)). cbn [picks]. rewrite H. auto. Qed.
Lemma NoDup_map_inj {A B} (f : A -> B) l x y : NoDup (map f l) -> In x l -> In y l -> f x = f y -> x = y.
Proof.
  induction l as [|a l IH]; intros HN Hx Hy E; [destruct Hx|]. cbn [map] in HN. inversion HN as [|? ? Hn HN']; subst.
  destruct Hx as [->|Hx], Hy as [->|Hy]; auto.
  - destruct Hn. rewrite E. apply in_map. auto.
  - destruct Hn. rewrite <- E. apply in_map. auto.
Qed.

Fixpoint sum_to (n : nat) (g : nat -> Z) : Z := match n with 0 => 0%Z | S n => (sum_to n g + g n)%Z end.
Lemma sum_to_ext n g h : (forall i, i < n -> g i = h i) -> sum_to n g = sum_to n h.
Proof. induction n as [|n IH]; intros H; auto. cbn [sum_to]. rewrite IH by (intros; apply H; lia). rewrite H by lia. auto. Qed.
Lemma sum_to_const n z : sum_to n (fun _ => z) = (Z.of_nat n * z)%Z.
Proof. induction n as [|n IH]; auto. cbn [sum_to]. rewrite IH. lia. Qed.
Lemma sum_to_nonneg n g : (forall i, (0 <= g i)%Z) -> (0 <= sum_to n g)%Z.
Proof. intros H. induction n as [|n IH]; cbn [sum_to]; [lia|]. pose proof (H n). lia. Qed.
Lemma sum_to_pos n g : (forall i, (0 <= g i)%Z) -> ((0 < sum_to n g)%Z <-> exists i, i < n /\ (0 < g i)%Z).
Proof.
  intros H. induction n as [|n IH]; cbn [sum_to]; [split; [lia|intros (i & Hi & _); lia]|].
  pose proof (sum_to_nonneg n g H) as H0. pose proof (H n) as H1. split.
  - intros Hs. destruct (Z.lt_ge_cases 0 (g n)) as [Hg|Hg]; [exists n; split; auto|]. destruct (proj1 IH) as (i & Hi & Hp); [lia|]. exists i. split; auto.
  - intros (i & Hi & Hp). destruct (Nat.eq_dec i n) as [->|]; [lia|]. assert (0 < sum_to n g)%Z; [|lia]. apply IH. exists i. split; [lia|auto].
Qed.
Lemma sum_to_change n g h p : p < n -> (forall i, i <> p -> g i = h i) -> sum_to n h = (sum_to n g - g p + h p)%Z.
Proof.
  intros Hp HE. induction n as [|n IH]; [lia|]. cbn [sum_to]. destruct (Nat.eq_dec p n) as [->|Hn].
  - rewrite (sum_to_ext n g h) by (intros i Hi; apply HE; lia). lia.
  - rewrite IH by lia. rewrite (HE n) by auto. lia.
Qed.

Section SourceP.
Context {D T R : Type} {OD : Ord D} {TT : Time T} {OR : Ord R}.
Notation update := (D * T * R)%type.
Notation time_of u := (snd (fst u)).
Variables (W : nat) (hash_update : update -> nat) (hash_time : T -> nat).
Hypothesis HW : 0 < W.
Notation wu := (worker_of_update W hash_update).
Notation wt := (worker_of_time W hash_time).
Variable all : list update.
Hypothesis Hall : NoDup (map fst all).
Lemma wu_lt u : wu u < W. Proof. apply Nat.mod_upper_bound. lia. Qed.
Lemma wt_lt t : wt t < W. Proof. apply Nat.mod_upper_bound. lia. Qed.
Lemma all_nodup : NoDup all.
Proof. apply (NoDup_map_inv fst). auto. Qed.

(** ** Trackers *)
(** a part of a truthful statement: the counts at the times worker [k] is responsible for *)
Definition part (k : nat) (p : Progress T) : Prop :=
  NoDup (map fst (p_counts p)) /\
  forall t c, In (t, c) (p_counts p) <-> wt t = k /\ beyond (p_lower p) t /\ ~ beyond (p_upper p) t /\ c = count_at all t /\ 0 < c.
Lemma share_part k p : truthful all p -> part k (share W hash_time k p).
Proof.
  intros [H1 H2]. split; cbn [share p_counts p_lower p_upper].
  - apply NoDup_map_filter. auto.
  - intros t c. rewrite filter_In, H2. cbn [fst]. rewrite Nat.eqb_eq. tauto.
Qed.
Definition expected (k : nat) (em : list update) (F : list T) (t : T) : Z :=
  if wt t =? k then ((if ac_less_equal F t then 0 else Z.of_nat (count_at all t)) - Z.of_nat (count_at em t))%Z else 0%Z.
(** [em]: what has been emitted; [fl]: the counts on their way *)
Record tr_weak (k : nat) (em : list update) (fl : list (T * Z)) (t : tracker T) : Prop := {
  tw_queue : Forall (part k) (tr_queue t);
  tw_counts : forall x, (weight (tr_counts t) x + weight fl x)%Z = expected k em (tr_progress t) x;
  tw_ac : antichain (tr_progress t) /\ antichain (tr_reported t);
  tw_flight : Forall (fun x => (snd x <= 0)%Z) fl
}.
Definition tr_bound (t : tracker T) : list T := ac_extend (tr_progress t) (ma_frontier (tr_counts t)).
Record tr_inv (k : nat) (em : list update) (fl : list (T * Z)) (t : tracker T) : Prop := {
  ti_weak : tr_weak k em fl t;
  ti_drained : forall p, In p (tr_queue t) -> ac_le (p_lower p) (tr_progress t) = false;
  ti_bound : same_future (tr_reported t) (tr_bound t)
}.
Definition safe (k : nat) (em : list update) (F : list T) : Prop := forall u, In u all -> wt (time_of u) = k -> ~ beyond F (time_of u) -> In u em.

Lemma tr_bound_beyond t x : beyond (tr_bound t) x <-> beyond (tr_progress t) x \/ exists y, tle y x = true /\ (0 < weight (tr_counts t) y)%Z.
Proof. unfold tr_bound. rewrite ac_extend_beyond, ma_frontier_beyond. tauto. Qed.
Lemma nonpos_weight (fl : list (T * Z)) x : Forall (fun x => (snd x <= 0)%Z) fl -> (weight fl x <= 0)%Z.
Proof.
  induction 1 as [|a fl Ha Hf IH]; [cbn; lia|]. rewrite weight_cons'. destruct (eqb (fst a) x); cbn [dplus Diff_Z dzero] in *; lia.
Qed.
Lemma tr_act_weak k em fl t p queue : tr_weak k em fl t -> Permutation (tr_queue t) (p :: queue) -> ac_le (p_lower p) (tr_progress t) = true ->
  tr_weak k em fl (tr_act t p queue).
Proof.
  intros I HP Hle. pose proof (proj1 (ac_le_spec _ _) Hle) as Hlow. destruct I.
  assert (HT : part k p) by (apply (proj1 (Forall_forall _ _) tw_queue0); apply (Permutation_in _ (Permutation_sym HP)); left; auto).
  unfold tr_act. set (nf := fold_left _ (p_upper p) []).
  assert (Hnf : forall t', beyond nf t' <-> beyond (p_upper p) t' /\ beyond (tr_progress t) t') by (intros t'; apply (antichain_join_beyond (p_upper p) (tr_progress t) t')).
  constructor; cbn [tr_queue tr_progress tr_counts tr_reported]; auto.
  - rewrite HP in tw_queue0. inversion tw_queue0; auto.
  - intros x. unfold ma_update_iter. rewrite weight_app. cbn [dplus Diff_Z].
    set (cs := filter _ (p_counts p)). pose proof (tw_counts0 x) as Hc0. unfold expected in *.
    assert (HNc : NoDup (map fst cs)) by (apply NoDup_map_filter; apply HT).
    destruct (weight_counts cs x HNc) as [W1 W2]. destruct HT as [_ HT].
    assert (Hcs : forall c, In (x, c) cs <-> wt x = k /\ beyond (tr_progress t) x /\ ~ beyond (p_upper p) x /\ c = count_at all x /\ 0 < c).
    { intros c. unfold cs. rewrite filter_In, HT. cbn [fst]. rewrite ac_less_equal_spec. split; [tauto|]. intros (H1 & H2 & H3). split; auto. }
    destruct (Nat.eqb_spec (wt x) k) as [Ek|Ek]; [|rewrite W2; [lia|intros c Hc; apply Hcs in Hc; tauto]].
    destruct (ac_less_equal (tr_progress t) x) eqn:Eb; destruct (ac_less_equal nf x) eqn:En.
    + apply ac_less_equal_spec, Hnf in En. rewrite W2; [lia|]. intros c Hc. apply Hcs in Hc. tauto.
    + apply ac_less_equal_false in En. apply ac_less_equal_spec in Eb. rewrite Hnf in En. destruct (Nat.eq_dec (count_at all x) 0) as [E0|E0].
      * rewrite W2; [lia|]. intros c Hc. apply Hcs in Hc. lia.
      * rewrite (W1 (count_at all x)); [lia|]. apply Hcs. split; [auto|split; [auto|split; [tauto|split; [auto|lia]]]].
    + apply ac_less_equal_spec, Hnf in En. apply ac_less_equal_false in Eb. tauto.
    + rewrite W2; [lia|]. intros c Hc. apply Hcs in Hc. apply ac_less_equal_false in Eb. tauto.
  - split; [|apply tw_ac0]. apply (antichain_join_antichain (p_upper p) (tr_progress t)).
Qed.
Lemma tr_act_progress (t : tracker T) p queue x : beyond (tr_progress (tr_act t p queue)) x <-> beyond (p_upper p) x /\ beyond (tr_progress t) x.
Proof. apply (antichain_join_beyond (p_upper p) (tr_progress t) x). Qed.
Lemma tr_drain_ok k em fl fuel : forall t, tr_weak k em fl t -> length (tr_queue t) <= fuel ->
  let t' := tr_drain fuel t in
  tr_weak k em fl t' /\ (forall p, In p (tr_queue t') -> ac_le (p_lower p) (tr_progress t') = false) /\ tr_reported t' = tr_reported t /\
  (forall x, beyond (tr_progress t') x -> beyond (tr_progress t) x) /\
  (forall p, In p (tr_queue t) -> In p (tr_queue t') \/ forall x, beyond (tr_progress t') x -> beyond (p_upper p) x).
Proof.
  induction fuel as [|fuel IH]; intros t I Hf; cbn [tr_drain]; destruct (take_first _ (tr_queue t)) as [[p queue]|] eqn:Et.
  - apply take_first_some in Et as [_ Et]. apply Permutation_length in Et. simpl in Et. lia.
  - split; [auto|split; [|auto]]. intros p Hp. apply (take_first_none _ _ Et p Hp).
  - apply take_first_some in Et as [Hle Et]. pose proof (Permutation_length Et) as HL. simpl in HL.
    destruct (IH (tr_act t p queue)) as (I' & D' & R' & P' & Q').
    + apply (tr_act_weak _ _ _ _ _ _ I Et Hle).
    + cbn [tr_act tr_queue]. lia.
    + split; [auto|split; [auto|split; [rewrite R'; reflexivity|split]]].
      * intros x Hx. apply P', tr_act_progress in Hx. tauto.
      * intros q Hq. apply (Permutation_in _ Et) in Hq as [<-|Hq]; [right; intros x Hx; apply P', tr_act_progress in Hx; tauto|auto].
  - split; [auto|split; [|auto]]. intros p Hp. apply (take_first_none _ _ Et p Hp).
Qed.
Lemma safe_weak k em fl t F : NoDup em -> incl em all -> tr_weak k em fl t -> (forall x, beyond (tr_bound t) x -> beyond F x) -> safe k em F.
Proof.
  intros HN HI I HF u Hu Hk Hn. apply (full_count all em (time_of u)); auto.
  pose proof (tw_counts _ _ _ _ I (time_of u)) as Hc. unfold expected in Hc. rewrite Hk, Nat.eqb_refl in Hc.
  pose proof (nonpos_weight fl (time_of u) (tw_flight _ _ _ _ I)) as Hf.
  assert (Hb : ~ beyond (tr_bound t) (time_of u)) by auto. rewrite tr_bound_beyond in Hb.
  destruct (ac_less_equal (tr_progress t) (time_of u)) eqn:Ep; [destruct Hb; left; apply ac_less_equal_spec; auto|].
  destruct (Z.lt_ge_cases 0 (weight (tr_counts t) (time_of u))) as [Hw|Hw]; [destruct Hb; right; exists (time_of u); split; [apply tle_refl|auto]|]. lia.
Qed.
(** what is reported only advances *)
Lemma tr_advance k em fl fl' t t' got x : NoDup em -> incl em all -> tr_inv k em fl t -> tr_weak k em fl' t' ->
  (forall y, weight fl y = weight got y + weight fl' y)%Z -> Forall (fun x => (snd x <= 0)%Z) got ->
  (forall y, beyond (tr_progress t') y -> beyond (tr_progress t) y) -> beyond (tr_bound t') x -> beyond (tr_reported t) x.
Proof.
  intros HN HI [I Hd Hb] I' Hw Hg Hp Hx. apply tr_bound_beyond in Hx as [Hx|(y & Hle & Hx)]; [apply Hb, tr_bound_beyond; auto|].
  apply (beyond_mono _ y); auto. destruct (beyond_dec (tr_reported t) y) as [H|Hn]; auto. exfalso.
  assert (Hny : ~ beyond (tr_bound t) y) by (rewrite <- (Hb y); auto). rewrite tr_bound_beyond in Hny.
  assert (Hnp : ac_less_equal (tr_progress t) y = false) by (apply ac_less_equal_false; tauto).
  assert (Hnp' : ac_less_equal (tr_progress t') y = false) by (apply ac_less_equal_false; intros H; apply Hny; left; auto).
  assert (H0 : (weight (tr_counts t) y <= 0)%Z).
  { destruct (Z.lt_ge_cases 0 (weight (tr_counts t) y)) as [H|H]; auto. destruct Hny. right. exists y. split; [apply tle_refl|auto]. }
  pose proof (tw_counts _ _ _ _ I y) as C1. pose proof (tw_counts _ _ _ _ I' y) as C2. unfold expected in C1, C2. rewrite Hnp in C1. rewrite Hnp' in C2.
  pose proof (nonpos_weight got y Hg) as F1. pose proof (nonpos_weight fl' y (tw_flight _ _ _ _ I')) as F2. rewrite Hw in C1.
  assert (HE : (if (wt y =? k)%nat then Z.of_nat (count_at all y) - Z.of_nat (count_at em y) else 0)%Z = 0%Z); [|rewrite HE in *; lia].
  destruct (Nat.eqb_spec (wt y) k) as [Ek|]; [|auto].
  assert (Hs : safe k em (tr_reported t)) by (apply (safe_weak k em fl t); auto; intros z Hz; apply Hb; auto).
  assert (Hc : count_at all y <= count_at em y).
  { unfold count_at. apply NoDup_incl_length; [apply NoDup_filter, all_nodup|]. intros u Hu. apply filter_In in Hu as [Hu Et]. apply filter_In. split; auto.
    destruct (eqb_spec (time_of u) y) as [Ey|]; [|discriminate]. apply Hs; auto; rewrite Ey; auto. }
  pose proof (sub_count all em y HN HI). lia.
Qed.

(** ** Feedback *)
Definition mult (F : list T) (t : T) : Z := weight (map (fun x => (x, 1%Z)) F) t.
Lemma mult_nonneg F t : (0 <= mult F t)%Z.
Proof. unfold mult. induction F as [|x F IH]; [cbn; lia|]. cbn [map]. rewrite weight_cons'. cbn [fst snd]. destruct (eqb x t); cbn [dplus Diff_Z dzero] in *; lia. Qed.
Lemma mult_pos F t : (0 < mult F t)%Z <-> In t F.
Proof.
  induction F as [|x F IH]; [cbn; split; [lia|tauto]|]. pose proof (mult_nonneg F t) as Hn. unfold mult in *. cbn [map]. rewrite weight_cons'. cbn [fst snd In].
  destruct (eqb_spec x t) as [->|Hx]; cbn [dplus Diff_Z dzero] in *; [split; [auto|lia]|]. rewrite Z.add_0_l, IH. split; [auto|intros [E|H]; [contradiction|auto]].
Qed.
Lemma mult_minus F t : weight (map (fun x => (x, (-1)%Z)) F) t = (- mult F t)%Z.
Proof.
  unfold mult. induction F as [|x F IH]; auto. cbn [map]. rewrite !weight_cons', IH. cbn [fst snd]. destruct (eqb x t); cbn [dplus Diff_Z dzero]; lia.
Qed.
(** the messages lead from [F] to [G], and no frontier on the way passes what has not been emitted *)
Fixpoint leads (k : nat) (em : list update) (F : list T) (ms : list (list (T * Z))) (G : list T) : Prop :=
  match ms with
  | [] => F = G
  | m :: ms => exists H, m = map (fun t => (t, 1%Z)) H ++ map (fun t => (t, (-1)%Z)) F /\ (forall t, beyond H t -> beyond F t) /\ safe k em H /\ leads k em H ms G
  end.
Lemma safe_mono k em em' F : incl em em' -> safe k em F -> safe k em' F.
Proof. intros Hi H u H1 H2 H3. apply Hi. apply H; auto. Qed.
Lemma leads_mono k em em' ms : forall F G, incl em em' -> leads k em F ms G -> leads k em' F ms G.
Proof.
  induction ms as [|m ms IH]; intros F G Hi; cbn [leads]; auto. intros (H & E & A & S & L). exists H. split; [auto|split; [auto|split; [|auto]]]. apply (safe_mono k em); auto.
Qed.
Lemma leads_snoc k em ms : forall F G H, leads k em F ms G -> (forall t, beyond H t -> beyond G t) -> safe k em H ->
  leads k em F (ms ++ [map (fun t => (t, 1%Z)) H ++ map (fun t => (t, (-1)%Z)) G]) H.
Proof.
  induction ms as [|m ms IH]; intros F G H L A S; cbn [leads app] in *.
  - subst. exists H. auto.
  - destruct L as (H' & E & A' & S' & L). exists H'. split; [auto|split; [auto|split; [auto|]]]. apply IH; auto.
Qed.

(** ** The invariant.  [f p q]: the frontier of worker [p] as worker [q] has learned it. *)
Record src_inv (f : nat -> nat -> list T) (s : state D T R) : Prop := {
  si_source : forall w, w < W -> Forall (tells_about all) (st_source s w);
  si_updates : forall w c us u, In (c, us) (st_updates s w) -> In u us -> In u all /\ wu u = w;
  si_nodup : NoDup (emitted s);
  si_incl : incl (emitted s) all;
  si_pending : forall w d t r, In ((d, t), r) (st_pending s w) -> In (d, t, r) (emitted s);
  si_seen : forall w d t r, In (d, t, r) (emitted s) -> wu (d, t, r) = w -> beyond (st_shown s w) t -> In ((d, t), r) (st_pending s w);
  si_progress : forall k, Forall (part k) (st_progress s k);
  si_tracker : forall k, k < W -> tr_inv k (emitted s) (concat (st_counts s k)) (st_tracker s k);
  si_feedback : forall p q, p < W -> q < W -> leads p (emitted s) (f p q) (st_feedback s p q) (tr_reported (st_tracker s p));
  si_told : forall p q, p < W -> q < W -> safe p (emitted s) (f p q);
  si_shared : forall q t, q < W -> weight (st_shared s q) t = sum_to W (fun p => mult (f p q) t);
  si_caps : forall w t, w < W -> beyond (learned s w) t -> beyond (st_caps s w) t;
  si_held : forall w u, w < W -> In u all -> ~ beyond (st_caps s w) (time_of u) -> In u (emitted s);
  si_ac : forall w, antichain (st_caps s w)
}.
Lemma learned_beyond f s q t : src_inv f s -> q < W -> (beyond (learned s q) t <-> exists p, p < W /\ beyond (f p q) t).
Proof.
  intros I Hq. unfold learned. rewrite ma_frontier_beyond. split.
  - intros (t' & Hle & Hw). rewrite (si_shared _ _ I q t' Hq) in Hw. apply sum_to_pos in Hw as (p & Hp & Hm); [|intros i; apply mult_nonneg].
    apply mult_pos in Hm. exists p. split; auto. exists t'. auto.
  - intros (p & Hp & t' & Hi & Hle). exists t'. split; auto. rewrite (si_shared _ _ I q t' Hq). apply sum_to_pos; [intros i; apply mult_nonneg|]. exists p. split; auto. apply mult_pos. auto.
Qed.
Lemma learned_sound f s q u : src_inv f s -> q < W -> In u all -> ~ beyond (learned s q) (time_of u) -> In u (emitted s).
Proof.
  intros I Hq Hu Hn. apply (si_told _ _ I (wt (time_of u)) q (wt_lt _) Hq); auto. intros Hb. apply Hn. apply (learned_beyond f s q _ I Hq). exists (wt (time_of u)). split; [apply wt_lt|auto].
Qed.
Lemma min_beyond (t : T) : beyond [tmin] t.
Proof. exists tmin. split; [left; auto|apply tmin_le]. Qed.
Lemma inv_st_new sources : (forall w, w < W -> Forall (tells_about all) (sources w)) -> src_inv (fun _ _ => [tmin]) (st_new W sources).
Proof.
  intros HS. constructor; unfold emitted, learned; cbn [st_new st_source st_caps st_updates st_pending st_shown st_counts st_progress st_tracker st_feedback st_shared st_out map]; auto.
  - intros w c us u [].
  - constructor.
  - intros u [].
  - intros k Hk. split; [split|..]; cbn [tr_new tr_queue tr_progress tr_counts tr_reported].
    + constructor.
    + intros x. unfold expected. rewrite (proj2 (ac_less_equal_spec _ _) (min_beyond x)). cbn. destruct (_ =? _); auto.
    + split; apply (ac_from_antichain [tmin]).
    + constructor.
    + intros p [].
    + intros x. rewrite tr_bound_beyond. cbn [tr_progress]. split; auto. intros _. apply min_beyond.
  - intros p q Hp Hq. cbn [leads]. auto.
  - intros p q Hp Hq u Hu Hk Hn. destruct Hn. apply min_beyond.
  - intros q t Hq. rewrite sum_to_const. unfold mult. cbn [map]. rewrite !weight_cons'. cbn [fst snd]. destruct (eqb tmin t); cbn; lia.
  - intros w t Hw Hb. apply min_beyond.
  - intros w u Hw Hu Hn. destruct Hn. apply min_beyond.
  - intros w. apply (ac_from_antichain [tmin]).
Qed.

(** ** MESSAGES *)
Lemma send_inv f s c m : src_inv f s -> tells_about all m -> src_inv f (send_message W hash_update hash_time c s m).
Proof.
  intros I Hm. destruct I. destruct m as [us|p]; cbn [send_message]; constructor; unfold emitted, learned in *; cbn [st_source st_caps st_updates st_pending st_shown st_counts st_progress st_tracker st_feedback st_shared st_out]; auto.
  - intros w c' us' u Hi Hu. destruct (is_nil _); [apply (si_updates0 w c' us'); auto|]. apply in_app_or in Hi as [Hi|[E|[]]]; [apply (si_updates0 w c' us'); auto|].
    inversion E; subst. apply filter_In in Hu as [Hu Ew]. apply Nat.eqb_eq in Ew. split; auto.
  - intros k. apply Forall_app. split; auto. constructor; auto. apply share_part. auto.
Qed.
Lemma sends_inv f c ms : forall s, src_inv f s -> Forall (tells_about all) ms -> src_inv f (fold_left (send_message W hash_update hash_time c) ms s).
Proof. induction ms as [|m ms IH]; intros s I HF; cbn [fold_left]; auto. inversion HF; subst. apply IH; auto. apply send_inv; auto. Qed.
Lemma sends_frame c ms : forall s, let s' := fold_left (send_message W hash_update hash_time c) ms s in
  st_source s' = st_source s /\ st_caps s' = st_caps s /\ st_shared s' = st_shared s /\ st_out s' = st_out s /\ st_tracker s' = st_tracker s /\
  (forall k x, In x (st_updates s k) -> In x (st_updates s' k)) /\ (forall k x, In x (st_progress s k) -> In x (st_progress s' k)) /\
  (forall us u, In (Updates us) ms -> In u us -> exists us', In (c, us') (st_updates s' (wu u)) /\ In u us') /\
  (forall p k, In (Statement p) ms -> In (share W hash_time k p) (st_progress s' k)) /\
  (forall k c' us' u, In (c', us') (st_updates s' k) -> In u us' -> In (c', us') (st_updates s k) \/ (c' = c /\ exists us, In (Updates us) ms /\ In u us)).
Proof.
  induction ms as [|m ms IH]; intros s; cbn [fold_left].
  - repeat split; auto; intros; contradiction.
  - destruct (IH (send_message W hash_update hash_time c s m)) as (E1 & E2 & E3 & E4 & E5 & U & P & SU & SP & B). clear IH.
    assert (Hk : forall k x, In x (st_updates s k) -> In x (st_updates (send_message W hash_update hash_time c s m) k)).
    { intros k x Hx. destruct m; cbn [send_message st_updates]; auto. destruct (is_nil _); auto. apply in_or_app; auto. }
    assert (Hp : forall k x, In x (st_progress s k) -> In x (st_progress (send_message W hash_update hash_time c s m) k)).
    { intros k x Hx. destruct m; cbn [send_message st_progress]; auto. apply in_or_app; auto. }
    split; [rewrite E1; destruct m; auto|]. split; [rewrite E2; destruct m; auto|]. split; [rewrite E3; destruct m; auto|]. split; [rewrite E4; destruct m; auto|]. split; [rewrite E5; destruct m; auto|].
    split; [auto|]. split; [auto|]. split; [|split].
    + intros us u [->|Hi] Hu; [|apply (SU us); auto]. exists (filter (fun v => wu v =? wu u) us).
      assert (Hf : In u (filter (fun v => wu v =? wu u) us)) by (apply filter_In; split; auto; apply Nat.eqb_refl). split; auto.
      apply U. cbn [send_message st_updates]. destruct (filter (fun v => wu v =? wu u) us) as [|y l]; [destruct Hf|]. cbn [is_nil]. apply in_or_app. right. left. auto.
    + intros p k [->|Hi]; [|auto]. apply P. cbn [send_message st_progress]. apply in_or_app. right. left. auto.
    + intros k c' us' u Hi Hu. destruct (B k c' us' u Hi Hu) as [H|(Ec & us & H1 & H2)]; [|right; split; auto; exists us; split; [right|]; auto].
      destruct m as [us|p]; cbn [send_message st_updates] in H; auto. destruct (is_nil _); auto. apply in_app_or in H as [H|[E|[]]]; auto. inversion E; subst.
      right. split; auto. exists us. split; [left; auto|]. apply filter_In in Hu as [Hu _]. auto.
Qed.

Definition with_read (s : state D T R) (w : nat) (rest : list (message D T R)) (caps : list T) : state D T R :=
  {| st_source := set_at (st_source s) w rest; st_caps := set_at (st_caps s) w caps; st_updates := st_updates s;
     st_pending := st_pending s; st_shown := st_shown s; st_counts := st_counts s; st_progress := st_progress s; st_tracker := st_tracker s;
     st_feedback := st_feedback s; st_shared := st_shared s; st_out := st_out s |}.
Lemma messages_form f s w n : src_inv f s -> w < W -> messages_step W hash_update hash_time s w n =
  match learned s w with
  | [] => Some (with_read s w (st_source s w) [])
  | c :: l => Some (fold_left (send_message W hash_update hash_time c) (firstn n (st_source s w)) (with_read s w (skipn n (st_source s w)) (c :: l)))
  end.
Proof.
  intros I Hw. unfold messages_step, caps_downgrade. fold (learned s w). rewrite (proj2 (forallb_forall _ _)).
  - destruct (learned s w); auto.
  - intros t Ht. apply ac_less_equal_spec. apply (si_caps _ _ I); auto. apply beyond_in. auto.
Qed.
Lemma with_read_inv f s w rest caps : src_inv f s -> w < W -> Forall (tells_about all) rest -> caps = learned s w -> src_inv f (with_read s w rest caps).
Proof.
  intros I Hw HF ->. pose proof (fun u => learned_sound f s w u I Hw) as HL. destruct I.
  constructor; unfold with_read, emitted in *; cbn [st_source st_caps st_updates st_pending st_shown st_counts st_progress st_tracker st_feedback st_shared st_out]; auto.
  - intros v Hv. destruct (set_at_cases (st_source s) w rest v) as [[-> ->]|[_ ->]]; auto.
  - intros v t Hv Hb. change (beyond (learned s v) t) in Hb. destruct (set_at_cases (st_caps s) w (learned s w) v) as [[-> ->]|[_ ->]]; auto.
  - intros v u Hv Hu Hn. destruct (set_at_cases (st_caps s) w (learned s w) v) as [[-> E]|[_ E]]; rewrite E in Hn; auto. apply (si_held0 v); auto.
  - intros v. destruct (set_at_cases (st_caps s) w (learned s w) v) as [[-> ->]|[_ ->]]; auto. apply ac_from_antichain.
Qed.
Lemma Forall_firstn_skipn {A} (P : A -> Prop) n l : Forall P l -> Forall P (firstn n l) /\ Forall P (skipn n l).
Proof. intros H. rewrite <- (firstn_skipn n l) in H. apply Forall_app in H. auto. Qed.
Lemma messages_inv f s w n : src_inv f s -> w < W -> exists s', messages_step W hash_update hash_time s w n = Some s' /\ src_inv f s'.
Proof.
  intros I Hw. rewrite (messages_form f s w n I Hw). pose proof (si_source _ _ I w Hw) as HF. destruct (Forall_firstn_skipn _ n _ HF) as [H1 H2].
  destruct (learned s w) as [|c l] eqn:El.
  - eexists. split; [reflexivity|]. apply with_read_inv; auto.
  - eexists. split; [reflexivity|]. apply sends_inv; auto. apply with_read_inv; auto.
Qed.

Lemma messages_caps f s w n s' : src_inv f s -> w < W -> messages_step W hash_update hash_time s w n = Some s' -> st_caps s' w = learned s w.
Proof.
  intros I Hw E. rewrite (messages_form f s w n I Hw) in E. destruct (learned s w) as [|c l] eqn:El; injection E as <-.
  - cbn [with_read st_caps]. apply set_at_same.
  - destruct (sends_frame c (firstn n (st_source s w)) (with_read s w (skipn n (st_source s w)) (c :: l))) as (_ & E2 & _). rewrite E2. cbn [with_read st_caps]. apply set_at_same.
Qed.

(** ** UPDATES *)
Lemma lookup_spec (pending : list ((D * T) * R)) k : match lookup pending k with Some r => In (k, r) pending | None => forall r, ~ In (k, r) pending end.
Proof.
  unfold lookup. destruct (find _ pending) as [[k' r]|] eqn:Ef; cbn [option_map snd].
  - apply find_some in Ef as [Hi E]. cbn [fst] in E. destruct (eqb_spec k' k) as [->|]; [auto|discriminate].
  - intros r Hi. apply (find_none _ _ Ef) in Hi. cbn [fst] in Hi. rewrite eqb_refl in Hi. discriminate.
Qed.
Lemma same_fst d t r r' : In (d, t, r) all -> In (d, t, r') all -> r = r'.
Proof. intros H1 H2. pose proof (NoDup_map_inj fst all _ _ Hall H1 H2 eq_refl) as E. inversion E. auto. Qed.
Lemma dedup_ok w F us : forall em pending, incl em all -> (forall u, In u us -> In u all /\ wu u = w) ->
  (forall d t r, In ((d, t), r) pending -> In (d, t, r) em) ->
  (forall d t r, In (d, t, r) em -> wu (d, t, r) = w -> beyond F t -> In ((d, t), r) pending) ->
  exists pending' fresh, dedup_updates F pending us = Some (pending', fresh) /\ NoDup fresh /\ (forall u, In u fresh -> In u us /\ beyond F (time_of u) /\ ~ In u em) /\
    (forall d t r, In ((d, t), r) pending' -> In (d, t, r) (em ++ fresh)) /\
    (forall d t r, In (d, t, r) (em ++ fresh) -> wu (d, t, r) = w -> beyond F t -> In ((d, t), r) pending') /\
    (forall u, In u us -> beyond F (time_of u) -> In u (em ++ fresh)).
Proof.
  induction us as [|[[d t] r] us IH]; intros em pending Hem Hus Hp1 Hp2; cbn [dedup_updates].
  - exists pending, []. rewrite app_nil_r. repeat split; auto; try constructor; intros; contradiction.
  - assert (Hus' : forall u, In u us -> In u all /\ wu u = w) by (intros u Hu; apply Hus; right; auto).
    destruct (Hus (d, t, r) (or_introl eq_refl)) as [Hin Hw]. destruct (ac_less_equal F t) eqn:Ef.
    + apply ac_less_equal_spec in Ef. pose proof (lookup_spec pending (d, t)) as HL. destruct (lookup pending (d, t)) as [prior|].
      * assert (prior = r) as -> by (apply (same_fst d t); auto). rewrite eqb_refl.
        destruct (IH em pending Hem Hus' Hp1 Hp2) as (p' & fr & E & N & Fr & Q1 & Q2 & C). exists p', fr. split; [auto|split; [auto|split; [|split; [auto|split; [auto|]]]]].
        -- intros u Hu. destruct (Fr u Hu) as (A & B & C'). split; [right; auto|auto].
        -- intros u [<-|Hu] Hb; [apply in_or_app; left; auto|auto].
      * assert (Hne : ~ In (d, t, r) em) by (intros H; apply (HL r); apply Hp2; auto).
        destruct (IH (em ++ [(d, t, r)]) (pending ++ [((d, t), r)])) as (p' & fr & E & N & Fr & Q1 & Q2 & C).
        -- apply incl_app; auto. intros u [<-|[]]. auto.
        -- auto.
        -- intros d' t' r' Hi. apply in_app_or in Hi as [Hi|[Hi|[]]]; apply in_or_app; [left; auto|right; left; inversion Hi; auto].
        -- intros d' t' r' Hi Hw' Hb. apply in_app_or in Hi as [Hi|[Hi|[]]]; apply in_or_app; [left; auto|right; left; inversion Hi; auto].
        -- rewrite E. exists p', ((d, t, r) :: fr). rewrite <- app_assoc in *. cbn [app] in *. split; [auto|split; [|split; [|split; [|split]]]]; auto.
           ++ constructor; auto. intros Hi. destruct (Fr _ Hi) as (_ & _ & Hx). apply Hx. apply in_or_app. right. left. auto.
           ++ intros u [<-|Hu]; [split; [left; auto|auto]|]. destruct (Fr u Hu) as (A & B & C'). split; [right; auto|split; [auto|]]. intros Hx. apply C'. apply in_or_app; auto.
           ++ intros u [<-|Hu] Hb; [apply in_or_app; right; left; auto|]. apply C; auto.
    + apply ac_less_equal_false in Ef. destruct (IH em pending Hem Hus' Hp1 Hp2) as (p' & fr & E & N & Fr & Q1 & Q2 & C). exists p', fr. split; [auto|split; [auto|split; [|split; [auto|split; [auto|]]]]].
      * intros u Hu. destruct (Fr u Hu) as (A & B & C'). split; [right; auto|auto].
      * intros u [<-|Hu] Hb; [contradiction|auto].
Qed.

(** the counts sent to worker [k] *)
Definition mine (k : nat) (fresh : list update) : list (T * Z) :=
  filter (fun x => wt (fst x) =? k) (consolidate (map (fun u => (time_of u, (-1)%Z)) fresh)).
Lemma weight_filter_time k (l : list (T * Z)) x : weight (filter (fun y => wt (fst y) =? k) l) x = if wt x =? k then weight l x else 0%Z.
Proof.
  induction l as [|[t z] l IH]; [cbn; destruct (_ =? _); auto|]. cbn [filter fst]. rewrite (weight_cons' (t, z) l). cbn [fst snd].
  destruct (wt t =? k) eqn:Et; [rewrite weight_cons'; cbn [fst snd]|]; rewrite IH; destruct (eqb_spec t x) as [->|Hx].
  - rewrite Et. auto.
  - destruct (wt x =? k); auto.
  - rewrite Et. auto.
  - destruct (wt x =? k); auto.
Qed.
Lemma mine_weight k fresh x : weight (mine k fresh) x = if wt x =? k then (- Z.of_nat (count_at fresh x))%Z else 0%Z.
Proof. unfold mine. rewrite weight_filter_time, (consolidate_weight _ x), weight_minus. auto. Qed.
Lemma mine_nonpos k fresh : Forall (fun x => (snd x <= 0)%Z) (mine k fresh).
Proof.
  apply Forall_forall. intros x Hx. apply filter_In in Hx as [Hx _]. pose proof (consolidated_weight _ (consolidate_consolidated _) _ Hx) as Hw.
  rewrite <- Hw, (consolidate_weight _ (fst x)), weight_minus. lia.
Qed.
Lemma concat_mine k fresh l : concat (if is_nil (mine k fresh) then l else l ++ [mine k fresh]) = concat l ++ mine k fresh.
Proof. destruct (mine k fresh) as [|a m] eqn:Em; cbn [is_nil]; [rewrite app_nil_r; auto|]. rewrite concat_app. cbn [concat]. rewrite app_nil_r. auto. Qed.
Lemma tr_more k em fl t fresh : tr_inv k em fl t -> tr_inv k (em ++ fresh) (fl ++ mine k fresh) t.
Proof.
  intros [I Hd Hb]. split; auto. destruct I. constructor; auto.
  - intros x. rewrite weight_app, mine_weight. cbn [dplus Diff_Z]. pose proof (tw_counts0 x) as H. unfold expected in *. rewrite count_app. destruct (wt x =? k); [|lia]. destruct (ac_less_equal _ x); lia.
  - apply Forall_app. split; auto. apply mine_nonpos.
Qed.
Lemma emitted_app (out : list (T * update)) c fresh : map snd (out ++ map (fun u => (c, u)) fresh) = map snd out ++ fresh.
Proof. rewrite map_app, map_map. cbn [snd]. rewrite map_id. auto. Qed.

(** What an activation of UPDATES does. *)
Lemma updates_ok f s w F k : src_inv f s -> w < W -> (forall t, beyond F t -> beyond (st_shown s w) t) -> (forall v c, v < W -> In c (st_caps s v) -> beyond F c) ->
  exists s', updates_step W hash_time s w F k = Some s' /\ src_inv f s' /\
    st_source s' = st_source s /\ st_caps s' = st_caps s /\ st_shared s' = st_shared s /\ st_progress s' = st_progress s /\ st_tracker s' = st_tracker s /\
    (st_out s' = st_out s /\ st_updates s' = st_updates s \/
     exists c us fresh, Permutation (st_updates s w) ((c, us) :: st_updates s' w) /\ (forall v, v <> w -> st_updates s' v = st_updates s v) /\
       st_out s' = st_out s ++ map (fun u => (c, u)) fresh /\ (forall u, In u fresh -> In u us /\ ~ In u (emitted s)) /\ incl us (emitted s')).
Proof.
  intros I Hw HF HC. unfold updates_step. set (pending := filter _ (st_pending s w)).
  assert (Hp1 : forall d t r, In ((d, t), r) pending -> In (d, t, r) (emitted s)) by (intros d t r Hi; apply filter_In in Hi as [Hi _]; apply (si_pending _ _ I w); auto).
  assert (Hp2 : forall d t r, In (d, t, r) (emitted s) -> wu (d, t, r) = w -> beyond F t -> In ((d, t), r) pending).
  { intros d t r Hi Ew Hb. apply filter_In. split; [apply (si_seen _ _ I w); auto|]. cbn [fst snd]. apply ac_less_equal_spec. auto. }
  destruct (nth_error (st_updates s w) k) as [[c us]|] eqn:En.
  - pose proof (nth_error_remove _ _ _ En) as HP. set (rest := firstn k (st_updates s w) ++ skipn (S k) (st_updates s w)) in *.
    assert (Hus : forall u, In u us -> In u all /\ wu u = w).
    { intros u Hu. apply (si_updates _ _ I w c us); auto. apply (Permutation_in _ (Permutation_sym HP)). left. auto. }
    destruct (dedup_ok w F us (emitted s) pending (si_incl _ _ I) Hus Hp1 Hp2) as (p' & fr & E & N & Fr & Q1 & Q2 & C). rewrite E.
    eexists. split; [reflexivity|]. split; [|split; [auto|split; [auto|split; [auto|split; [auto|split; [auto|]]]]]].
    + destruct I. constructor; unfold emitted, learned in *; cbn [st_source st_caps st_updates st_pending st_shown st_counts st_progress st_tracker st_feedback st_shared st_out]; auto; rewrite ?emitted_app.
      * intros v c' us' u Hi Hu. destruct (set_at_cases (st_updates s) w rest v) as [[-> E']|[_ E']]; rewrite E' in Hi; [|apply (si_updates0 v c' us'); auto].
        apply (si_updates0 w c' us'); auto. apply (Permutation_in _ (Permutation_sym HP)). right. auto.
      * apply NoDup_app_intro; auto. intros x H1 H2. destruct (Fr x H2) as (_ & _ & Hx). auto.
      * apply incl_app; auto. intros u Hu. apply Hus. apply (Fr u Hu).
      * intros v d t r Hi. destruct (set_at_cases (st_pending s) w p' v) as [[-> E']|[_ E']]; rewrite E' in Hi; [apply Q1; auto|apply in_or_app; left; apply (si_pending0 v); auto].
      * intros v d t r Hi Ew Hb. destruct (set_at_cases (st_pending s) w p' v) as [[-> E']|[Hv E']]; rewrite E'; [rewrite set_at_same in Hb; apply Q2; auto|].
        rewrite set_at_other in Hb by auto. apply in_app_or in Hi as [Hi|Hi]; [apply si_seen0; auto|]. destruct (Fr _ Hi) as (Hi' & _). apply Hus in Hi'. destruct Hv. rewrite <- Ew. tauto.
      * intros v Hv. fold (mine v fr). rewrite concat_mine. apply tr_more. auto.
      * intros p q Hp Hq. apply (leads_mono p (map snd (st_out s))); auto. intros x Hx. apply in_or_app; auto.
      * intros p q Hp Hq. apply (safe_mono p (map snd (st_out s))); auto. intros x Hx. apply in_or_app; auto.
      * intros v u Hv Hu Hn. apply in_or_app. left. apply (si_held0 v); auto.
    + right. exists c, us, fr. cbn [st_updates st_out]. unfold emitted at 2. cbn [st_out]. rewrite set_at_same, emitted_app.
      split; [exact HP|split; [intros v Hv; apply set_at_other; auto|split; [auto|split]]].
      * intros u Hu. destruct (Fr u Hu) as (A & _ & B). auto.
      * intros u Hu. destruct (beyond_dec F (time_of u)) as [Hb|Hn]; [apply C; auto|]. apply in_or_app. left.
        apply (si_held _ _ I w u Hw); [apply Hus; auto|]. intros (x & Hx & Hle). apply Hn. apply (beyond_mono _ x); auto. apply (HC w); auto.
  - eexists. split; [reflexivity|]. split; [|split; [auto|split; [auto|split; [auto|split; [auto|split; [auto|left; auto]]]]]].
    destruct I. constructor; unfold emitted, learned in *; cbn [st_source st_caps st_updates st_pending st_shown st_counts st_progress st_tracker st_feedback st_shared st_out]; auto.
    + intros v d t r Hi. destruct (set_at_cases (st_pending s) w pending v) as [[-> E']|[_ E']]; rewrite E' in Hi; [apply Hp1; auto|apply (si_pending0 v); auto].
    + intros v d t r Hi Ew Hb. destruct (set_at_cases (st_pending s) w pending v) as [[-> E']|[Hv E']]; rewrite E'; [rewrite set_at_same in Hb; apply Hp2; auto|].
      rewrite set_at_other in Hb by auto. apply si_seen0; auto.
Qed.

(** ** PROGRESS *)
Lemma progress_ok f s p cs ps : src_inv f s -> p < W ->
  exists s', progress_step s p cs ps = Some s' /\ src_inv f s' /\
    st_source s' = st_source s /\ st_caps s' = st_caps s /\ st_shared s' = st_shared s /\ st_updates s' = st_updates s /\ st_out s' = st_out s /\
    (forall k, k <> p -> st_progress s' k = st_progress s k /\ st_tracker s' k = st_tracker s k) /\
    (forall x, beyond (tr_progress (st_tracker s' p)) x -> beyond (tr_progress (st_tracker s p)) x) /\
    (forall st, In st (st_progress s p) \/ In st (tr_queue (st_tracker s p)) ->
       In st (st_progress s' p) \/ In st (tr_queue (st_tracker s' p)) \/ forall x, beyond (tr_progress (st_tracker s' p)) x -> beyond (p_upper st) x).
Proof.
  intros I Hp. unfold progress_step. destruct (picks cs (st_counts s p)) as [got left_c] eqn:Ec. destruct (picks ps (st_progress s p)) as [sts left_p] eqn:Ep.
  apply picks_perm in Ec. apply picks_perm in Ep. set (t0 := st_tracker s p). cbv zeta.
  set (t1 := {| tr_queue := tr_queue t0 ++ sts; tr_progress := tr_progress t0; tr_counts := ma_update_iter (tr_counts t0) (concat got); tr_reported := tr_reported t0 |}).
  pose proof (si_tracker _ _ I p Hp) as TI. fold t0 in TI. pose proof (si_progress _ _ I p) as PI. rewrite Ep in PI. apply Forall_app in PI as [PI1 PI2].
  assert (HPc : Permutation (concat (st_counts s p)) (concat got ++ concat left_c)).
  { rewrite <- concat_app. clear -Ec. induction Ec; cbn [concat]; auto.
    - apply Permutation_app_head. auto.
    - rewrite !app_assoc. apply Permutation_app_tail. apply Permutation_app_comm.
    - etransitivity; eauto. }
  assert (Hfl : Forall (fun x => (snd x <= 0)%Z) (concat got) /\ Forall (fun x => (snd x <= 0)%Z) (concat left_c)).
  { apply Forall_app. rewrite <- HPc. apply (tw_flight _ _ _ _ (ti_weak _ _ _ _ TI)). }
  assert (Hwt : forall y, (weight (concat (st_counts s p)) y = weight (concat got) y + weight (concat left_c) y)%Z).
  { intros y. rewrite (weight_perm _ _ HPc y), weight_app. auto. }
  assert (W1 : tr_weak p (emitted s) (concat left_c) t1).
  { pose proof (ti_weak _ _ _ _ TI) as W0. destruct W0. constructor; cbn [t1 tr_queue tr_progress tr_counts tr_reported]; auto.
    - apply Forall_app. auto.
    - intros x. rewrite <- tw_counts0, Hwt. unfold ma_update_iter. rewrite weight_app. cbn [dplus Diff_Z]. lia.
    - tauto. }
  destruct (tr_drain_ok p (emitted s) (concat left_c) (length (tr_queue t1)) t1 W1 (Nat.le_refl _)) as (W2 & D2 & R2 & P2 & Q2).
  set (t2 := tr_drain (length (tr_queue t1)) t1) in *. fold (tr_bound t2). change (tr_reported t1) with (tr_reported t0) in R2. change (tr_progress t1) with (tr_progress t0) in P2.
  assert (Hadv : forall x, beyond (tr_bound t2) x -> beyond (tr_reported t0) x).
  { intros x Hx. apply (tr_advance p (emitted s) (concat (st_counts s p)) (concat left_c) t0 t2 (concat got)); auto; [apply (si_nodup _ _ I)|apply (si_incl _ _ I)|tauto]. }
  assert (Hq : forall st, In st (st_progress s p) \/ In st (tr_queue t0) -> In st left_p \/ In st (tr_queue t2) \/ forall x, beyond (tr_progress t2) x -> beyond (p_upper st) x).
  { intros st Hst. assert (Hst' : In st left_p \/ In st (tr_queue t1)).
    { destruct Hst as [H|H]; [apply (Permutation_in _ Ep) in H; apply in_app_or in H as [H|H]; auto|]; right; cbn [t1 tr_queue]; apply in_or_app; auto. }
    destruct Hst' as [H|H]; [auto|]. right. apply Q2. auto. }
  assert (Hac2 : antichain (tr_bound t2)) by (apply ac_extend_antichain; apply (tw_ac _ _ _ _ W2)).
  assert (Hinv : forall t3 fb, tr_inv p (emitted s) (concat left_c) t3 -> (forall q, q < W -> leads p (emitted s) (f p q) (fb p q) (tr_reported t3)) ->
    (forall v q, v <> p -> fb v q = st_feedback s v q) ->
    src_inv f {| st_source := st_source s; st_caps := st_caps s; st_updates := st_updates s; st_pending := st_pending s; st_shown := st_shown s;
       st_counts := set_at (st_counts s) p left_c; st_progress := set_at (st_progress s) p left_p;
       st_tracker := set_at (st_tracker s) p t3; st_feedback := fb; st_shared := st_shared s; st_out := st_out s |}).
  { intros t3 fb HT HL HO. destruct I. constructor; unfold emitted, learned in *; cbn [st_source st_caps st_updates st_pending st_shown st_counts st_progress st_tracker st_feedback st_shared st_out]; auto.
    - intros k. destruct (set_at_cases (st_progress s) p left_p k) as [[-> ->]|[_ ->]]; auto.
    - intros k Hk. destruct (Nat.eq_dec k p) as [->|Hn]; [rewrite !set_at_same; auto|rewrite !set_at_other by auto; auto].
    - intros v q Hv Hq'. destruct (Nat.eq_dec v p) as [->|Hn]; [rewrite set_at_same; auto|rewrite set_at_other by auto; rewrite HO by auto; auto]. }
  assert (Hfr : forall t3, tr_progress t3 = tr_progress t2 -> tr_queue t3 = tr_queue t2 ->
     (forall k, k <> p -> set_at (st_progress s) p left_p k = st_progress s k /\ set_at (st_tracker s) p t3 k = st_tracker s k) /\
     (forall x, beyond (tr_progress (set_at (st_tracker s) p t3 p)) x -> beyond (tr_progress (st_tracker s p)) x) /\
     (forall st, In st (st_progress s p) \/ In st (tr_queue (st_tracker s p)) ->
       In st (set_at (st_progress s) p left_p p) \/ In st (tr_queue (set_at (st_tracker s) p t3 p)) \/ forall x, beyond (tr_progress (set_at (st_tracker s) p t3 p)) x -> beyond (p_upper st) x)).
  { intros t3 E1 E2. rewrite !set_at_same, E1, E2. split; [|auto]. intros k Hk. rewrite !set_at_other by auto. auto. }
  destruct (ac_eqb (tr_bound t2) (tr_reported t2)) eqn:Ee.
  - apply ac_eqb_spec in Ee; [|auto|apply (tw_ac _ _ _ _ W2)]. eexists. split; [reflexivity|]. split; [|split; [auto|split; [auto|split; [auto|split; [auto|split; [auto|]]]]]].
    + apply Hinv; auto.
      * split; auto. intros x. rewrite (Ee x). tauto.
      * intros q Hq'. rewrite R2. apply (si_feedback _ _ I p q); auto.
    + apply Hfr; auto.
  - destruct (is_nil got && is_nil sts) eqn:En.
    + exfalso. apply andb_true_iff in En as [En1 En2]. destruct got; [|discriminate]. destruct sts; [|discriminate].
      assert (Ht : t2 = t1).
      { unfold t2. destruct (length (tr_queue t1)); cbn [tr_drain]; destruct (take_first _ (tr_queue t1)) as [[q' r]|] eqn:Et; auto.
        apply take_first_some in Et as [Hle Et]. cbn [t1 tr_queue tr_progress] in *. rewrite app_nil_r in Et. rewrite (ti_drained _ _ _ _ TI q') in Hle; [discriminate|].
        apply (Permutation_in _ (Permutation_sym Et)). left. auto. }
      assert (Hx : ac_eqb (tr_bound t2) (tr_reported t2) = true); [|congruence]. apply ac_eqb_spec; [auto|apply (tw_ac _ _ _ _ W2)|].
      rewrite R2. intros x. rewrite (ti_bound _ _ _ _ TI x). rewrite Ht. unfold tr_bound. cbn [t1 tr_progress tr_counts concat]. unfold ma_update_iter. rewrite app_nil_r. tauto.
    + eexists. split; [reflexivity|]. split; [|split; [auto|split; [auto|split; [auto|split; [auto|split; [auto|]]]]]].
      * apply Hinv; cbn [tr_reported tr_queue tr_progress tr_counts]; auto.
        -- split; [|auto|intros x; reflexivity]. destruct W2. constructor; cbn [tr_reported tr_queue tr_progress tr_counts]; auto. tauto.
        -- intros q Hq'. rewrite set_at_same, R2. apply leads_snoc; auto.
           ++ apply (si_feedback _ _ I p q); auto.
           ++ apply (safe_weak p (emitted s) (concat left_c) t2); auto; [apply (si_nodup _ _ I)|apply (si_incl _ _ I)].
        -- intros v q Hv. rewrite set_at_other; auto.
      * apply Hfr; auto.
Qed.

(** ** FEEDBACK *)
Lemma feedback_one_inv f s q p : src_inv f s -> q < W -> p < W -> exists f', src_inv f' (feedback_one q s p).
Proof.
  intros I Hq Hp. unfold feedback_one. destruct (st_feedback s p q) as [|m rest] eqn:Ef; [exists f; auto|].
  pose proof (si_feedback _ _ I p q Hp Hq) as HL. rewrite Ef in HL. cbn [leads] in HL. destruct HL as (H & Em & HA & HS & HL).
  pose proof (learned_beyond f s) as HLB. set (f' := fun a b => if (a =? p) && (b =? q) then H else f a b).
  assert (Ef' : f' p q = H) by (unfold f'; rewrite !Nat.eqb_refl; auto).
  assert (Eo : forall a b, a <> p \/ b <> q -> f' a b = f a b).
  { intros a b Hab. unfold f'. destruct (Nat.eqb_spec a p); [|auto]. destruct (Nat.eqb_spec b q); [|auto]. tauto. }
  exists f'.
  assert (Hsh : forall v t, v < W -> weight (set_at (st_shared s) q (ma_update_iter (st_shared s q) m) v) t = sum_to W (fun x => mult (f' x v) t)).
  { intros v t Hv. destruct (set_at_cases (st_shared s) q (ma_update_iter (st_shared s q) m) v) as [[-> ->]|[Hn ->]].
    - unfold ma_update_iter. rewrite weight_app, (si_shared _ _ I q t Hq), Em, weight_app, mult_minus. fold (mult H t). cbn [dplus Diff_Z].
      rewrite (sum_to_change W (fun x => mult (f x q) t) (fun x => mult (f' x q) t) p Hp); [rewrite Ef'; lia|]. intros i Hi. rewrite Eo by auto. auto.
    - rewrite (si_shared _ _ I v t Hv). apply sum_to_ext. intros i _. rewrite Eo by auto. auto. }
  assert (Hle : forall v t, v < W -> beyond (ma_frontier (set_at (st_shared s) q (ma_update_iter (st_shared s q) m) v)) t -> beyond (learned s v) t).
  { intros v t Hv Hb. apply ma_frontier_beyond in Hb as (t' & Hle & Hw). rewrite (Hsh v t' Hv) in Hw. apply sum_to_pos in Hw as (a & Ha & Hm); [|intros i; apply mult_nonneg].
    apply mult_pos in Hm. apply (HLB v t I Hv). exists a. split; auto. destruct (Nat.eq_dec a p) as [->|Hn]; [destruct (Nat.eq_dec v q) as [->|Hn]|].
    - rewrite Ef' in Hm. apply HA. exists t'. auto.
    - rewrite Eo in Hm by auto. exists t'. auto.
    - rewrite Eo in Hm by auto. exists t'. auto. }
  destruct I. constructor; unfold emitted, learned in *; cbn [st_source st_caps st_updates st_pending st_shown st_counts st_progress st_tracker st_feedback st_shared st_out]; auto.
  - intros a b Ha Hb. destruct (Nat.eq_dec a p) as [->|Hn]; [rewrite set_at_same; destruct (Nat.eq_dec b q) as [->|Hn]|].
    + rewrite set_at_same, Ef'. auto.
    + rewrite set_at_other by auto. rewrite Eo by auto. auto.
    + rewrite set_at_other by auto. rewrite Eo by auto. auto.
  - intros a b Ha Hb. destruct (Nat.eq_dec a p) as [->|Hn]; [destruct (Nat.eq_dec b q) as [->|Hn]|]; [rewrite Ef'; auto| |]; rewrite Eo by auto; auto.
Qed.
Lemma feedback_one_frame q (s : state D T R) p : let s' := feedback_one q s p in
  st_source s' = st_source s /\ st_caps s' = st_caps s /\ st_updates s' = st_updates s /\ st_progress s' = st_progress s /\ st_tracker s' = st_tracker s /\ st_out s' = st_out s.
Proof. unfold feedback_one. destruct (st_feedback s p q); repeat split; auto. Qed.
Lemma feedback_ok ps : forall f s q, src_inv f s -> q < W -> Forall (fun p => p < W) ps ->
  let s' := fold_left (feedback_one q) ps s in
  (exists f', src_inv f' s') /\
  st_source s' = st_source s /\ st_caps s' = st_caps s /\ st_updates s' = st_updates s /\ st_progress s' = st_progress s /\ st_tracker s' = st_tracker s /\ st_out s' = st_out s.
Proof.
  induction ps as [|p ps IH]; intros f s q I Hq HF; cbn [fold_left]; [split; [exists f; auto|repeat split; auto]|].
  inversion HF; subst. destruct (feedback_one_inv f s q p I Hq) as [f' I']; auto. destruct (feedback_one_frame q s p) as (E1 & E2 & E3 & E4 & E5 & E6).
  destruct (IH f' _ q I' Hq) as (J & F1 & F2 & F3 & F4 & F5 & F6); auto. split; auto. rewrite F1, F2, F3, F4, F5, F6. auto 10.
Qed.

(** ** What is known of the messages of the sources *)
Definition carried (s : state D T R) (u : update) : Prop :=
  In u (emitted s) \/ (exists w us, w < W /\ In (Updates us) (st_source s w) /\ In u us) \/ (exists k c us, k < W /\ In (c, us) (st_updates s k) /\ In u us).
Definition heard (s : state D T R) (p : Progress T) : Prop :=
  (exists w, w < W /\ In (Statement p) (st_source s w)) \/
  forall k, k < W -> In (share W hash_time k p) (st_progress s k) \/ In (share W hash_time k p) (tr_queue (st_tracker s k)) \/
    forall t, beyond (tr_progress (st_tracker s k)) t -> beyond (p_upper p) t.
(** messages carry capabilities no later than the updates in them, if times are totally ordered *)
Definition timed (s : state D T R) : Prop :=
  (forall k c us u, In (c, us) (st_updates s k) -> In u us -> tle c (time_of u) = true \/ In u (emitted s)) /\
  (forall c u, In (c, u) (st_out s) -> tle c (time_of u) = true).
Definition total_order : Prop := forall a b : T, tle a b = true \/ tle b a = true.

Lemma step_ok f s a : src_inv f s -> may_act W s a ->
  exists s' f', step W hash_update hash_time s a = Some s' /\ src_inv f' s' /\
    (forall u, carried s u -> carried s' u) /\ (forall p, heard s p -> heard s' p) /\ (total_order -> timed s -> timed s').
Proof.
  intros I HA. destruct a as [w n|w F k|p cs ps|q ps]; cbn [may_act step] in *.
  - destruct (messages_inv f s w n I HA) as (s' & Es & I'). exists s', f. split; [auto|split; [auto|]]. pose proof Es as Es'. rewrite (messages_form f s w n I HA) in Es.
    assert (Hc : learned s w = [] -> s' = with_read s w (st_source s w) []) by (intros El; rewrite El in Es; inversion Es; auto).
    assert (Hids : forall v, set_at (st_source s) w (st_source s w) v = st_source s v) by (intros v; destruct (set_at_cases (st_source s) w (st_source s w) v) as [[-> ->]|[_ ->]]; auto).
    destruct (learned s w) as [|c l] eqn:El.
    + rewrite (Hc eq_refl). split; [|split].
      * intros u [H|[(v & us & Hv & H1 & H2)|H]]; [left; auto|right; left; exists v, us; cbn [with_read st_source]; rewrite Hids; auto|right; right; auto].
      * intros p [(v & Hv & H)|H]; [left; exists v; cbn [with_read st_source]; rewrite Hids; auto|right; auto].
      * intros _ Ht. exact Ht.
    + inversion Es as [Es2]. rewrite <- El in Es2. destruct (sends_frame c (firstn n (st_source s w)) (with_read s w (skipn n (st_source s w)) (learned s w))) as (E1 & E2 & E3 & E4 & E5 & U & P & SU & SP & B).
      rewrite El in *. rewrite Es2 in *. cbn [with_read st_source st_caps st_shared st_out st_tracker st_updates st_progress] in *.
      assert (Hsrc : forall v m, In m (st_source s v) -> In m (st_source s' v) \/ (v = w /\ In m (firstn n (st_source s w)))).
      { intros v m Hm. rewrite E1. destruct (set_at_cases (st_source s) w (skipn n (st_source s w)) v) as [[-> ->]|[_ ->]]; auto.
        rewrite <- (firstn_skipn n (st_source s w)) in Hm. apply in_app_or in Hm as [Hm|Hm]; auto. }
      assert (Eem : emitted s' = emitted s) by (unfold emitted; rewrite E4; auto).
      split; [|split].
      * intros u [H|[(v & us & Hv & H1 & H2)|(k & c' & us & Hk & H1 & H2)]].
        -- left. rewrite Eem. auto.
        -- destruct (Hsrc v _ H1) as [H|[-> H]]; [right; left; exists v, us; auto|]. destruct (SU us u H H2) as (us' & H3 & H4). right. right. exists (wu u), c, us'. split; [apply wu_lt|auto].
        -- right. right. exists k, c', us. auto.
      * intros p [(v & Hv & H1)|H].
        -- destruct (Hsrc v _ H1) as [H|[-> H]]; [left; exists v; auto|]. right. intros k Hk. left. apply SP. auto.
        -- right. intros k Hk. rewrite E5. destruct (H k Hk) as [H'|H']; [left; auto|right; auto].
      * intros TO [T1 T2]. split; [|rewrite E4; auto]. intros k c' us' u Hi Hu. rewrite Eem. destruct (B k c' us' u Hi Hu) as [H|(-> & us & H1 & H2)]; [apply (T1 k c' us'); auto|].
        assert (Hua : In u all).
        { pose proof (si_source _ _ I w HA) as HF. rewrite Forall_forall in HF. specialize (HF (Updates us)). apply HF; auto. rewrite <- (firstn_skipn n). apply in_or_app; auto. }
        destruct (beyond_dec (learned s w) (time_of u)) as [Hb|Hn]; [|right; apply (learned_sound f s w); auto].
        left. destruct Hb as (x & Hx & Hle). destruct (TO c x) as [H|H]; [eapply tle_trans; eauto|].
        assert (Hac : antichain (learned s w)) by apply ac_from_antichain. rewrite El in Hac, Hx. destruct Hx as [<-|Hx]; auto.
        inversion Hac as [|? ? Hna _]; subst. destruct (Hna x Hx) as [Q1 Q2]. congruence.
  - destruct HA as (Hw & HF & HC). destruct (updates_ok f s w F k I Hw HF HC) as (s' & Es & I' & E1 & E2 & E3 & E4 & E5 & HU). exists s', f. split; [auto|split; [auto|split; [|split]]].
    + intros u [H|[(v & us & Hv & H1 & H2)|(v & c & us & Hv & H1 & H2)]].
      * left. destruct HU as [[E6 _]|(c & us & fr & _ & _ & E6 & _)]; unfold emitted in *; rewrite E6; auto. rewrite emitted_app. apply in_or_app; auto.
      * right. left. exists v, us. rewrite E1. auto.
      * destruct HU as [[E6 E7]|(c' & us' & fr & HP & HO & E6 & _ & Hin)]; [right; right; exists v, c, us; rewrite E7; auto|].
        destruct (Nat.eq_dec v w) as [->|Hn]; [|right; right; exists v, c, us; rewrite HO; auto].
        apply (Permutation_in _ HP) in H1 as [E|H1]; [inversion E; subst; left; auto|right; right; exists w, c, us; auto].
    + intros p [(v & Hv & H)|H]; [left; exists v; rewrite E1; auto|right; intros j Hj; rewrite E4, E5; auto].
    + intros TO [T1 T2]. destruct HU as [[E6 E7]|(c' & us' & fr & HP & HO & E6 & Hfr & Hin)].
      * split; unfold emitted; rewrite E6, ?E7; auto.
      * split.
        -- intros v c us u Hi Hu. assert (Hi' : In (c, us) (st_updates s v)).
           { destruct (Nat.eq_dec v w) as [->|Hn]; [apply (Permutation_in _ (Permutation_sym HP)); right; auto|rewrite HO in Hi; auto]. }
           destruct (T1 v c us u Hi' Hu) as [H|H]; auto. right. unfold emitted in *. rewrite E6, emitted_app. apply in_or_app; auto.
        -- intros c u Hi. rewrite E6 in Hi. apply in_app_or in Hi as [Hi|Hi]; auto. apply in_map_iff in Hi as (u' & E & Hu). inversion E; subst. destruct (Hfr u Hu) as [H1 H2].
           assert (H3 : In (c, us') (st_updates s w)) by (apply (Permutation_in _ (Permutation_sym HP)); left; auto).
           destruct (T1 w c us' u H3 H1) as [H|H]; [auto|contradiction].
  - destruct (progress_ok f s p cs ps I HA) as (s' & Es & I' & E1 & E2 & E3 & E4 & E5 & HO & HP & HQ). exists s', f. split; [auto|split; [auto|]].
    assert (Eem : emitted s' = emitted s) by (unfold emitted; rewrite E5; auto). split; [|split].
    + intros u H. unfold carried in *. rewrite Eem, E1, E4. auto.
    + intros st [(v & Hv & H)|H]; [left; exists v; rewrite E1; auto|right]. intros k Hk. destruct (Nat.eq_dec k p) as [->|Hn].
      * destruct (H p Hk) as [H'|[H'|H']]; [apply (HQ (share W hash_time p st)); auto|apply (HQ (share W hash_time p st)); auto|right; right; auto].
      * destruct (HO k Hn) as [Q1 Q2]. rewrite Q1, Q2. auto.
    + intros _ [T1 T2]. split; rewrite ?Eem, ?E4, ?E5; auto.
  - destruct HA as [Hq HF]. destruct (feedback_ok ps f s q I Hq HF) as ([f' I'] & E1 & E2 & E3 & E4 & E5 & E6). unfold feedback_step. exists (fold_left (feedback_one q) ps s), f'. split; [auto|split; [auto|]].
    unfold carried, heard, timed, emitted. rewrite E1, E3, E4, E5, E6. auto.
Qed.
Lemma run_ok acts : forall f s, src_inv f s -> may_run W hash_update hash_time s acts ->
  exists s' f', run W hash_update hash_time s acts = Some s' /\ src_inv f' s' /\
    (forall u, carried s u -> carried s' u) /\ (forall p, heard s p -> heard s' p) /\ (total_order -> timed s -> timed s').
Proof.
  induction acts as [|a acts IH]; intros f s I HM; cbn [run may_run] in *; [exists s, f; auto 10|]. destruct HM as [HA HM].
  destruct (step_ok f s a I HA) as (s1 & f1 & E1 & I1 & C1 & H1 & T1). rewrite E1 in *. destruct (IH f1 s1 I1 HM) as (s2 & f2 & E2 & I2 & C2 & H2 & T2).
  exists s2, f2. auto 10.
Qed.

(** ** At rest *)
Section Rest.
Variable sources : nat -> list (message D T R).
Definition all_messages : list (message D T R) := flat_map sources (seq 0 W).
Lemma in_all_messages m : In m all_messages <-> exists w, w < W /\ In m (sources w).
Proof. unfold all_messages. rewrite in_flat_map. split; intros (w & H1 & H2); exists w; split; auto; apply in_seq in H1 || apply in_seq; lia. Qed.

Lemma rest_caps_nil f s w q : src_inv f s -> at_rest W s -> w < W -> q < W -> st_caps s w = [] -> forall t, ~ beyond (learned s q) t.
Proof.
  intros I HR Hw Hq Ec t Hb. apply (learned_beyond f s q t I Hq) in Hb as (p & Hp & Hb).
  assert (E : f p q = f p w).
  { destruct (HR q Hq) as (_ & _ & _ & _ & F1). destruct (HR w Hw) as (_ & _ & _ & _ & F2). pose proof (si_feedback _ _ I p q Hp Hq) as L1. pose proof (si_feedback _ _ I p w Hp Hw) as L2.
    rewrite F1 in L1 by auto. rewrite F2 in L2 by auto. cbn [leads] in *. congruence. }
  rewrite E in Hb. assert (Hl : beyond (learned s w) t) by (apply (learned_beyond f s w t I Hw); exists p; auto). apply (si_caps _ _ I w t Hw) in Hl. rewrite Ec in Hl. exact (beyond_nil _ Hl).
Qed.
Lemma rest_emitted f s u : src_inv f s -> at_rest W s -> In u all -> carried s u -> In u (emitted s).
Proof.
  intros I HR Hu [H|[(w & us & Hw & H1 & H2)|(k & c & us & Hk & H1 & H2)]]; auto.
  - destruct (HR w Hw) as ([E|E] & _); [rewrite E in H1; destruct H1|]. apply (si_held _ _ I w u Hw Hu). rewrite E. apply beyond_nil.
  - destruct (HR k Hk) as (_ & E & _). rewrite E in H1. destruct H1.
Qed.
Lemma rest_reaches f s F : src_inv f s -> at_rest W s -> (forall w, w < W -> st_source s w = []) -> (forall p, In (Statement p) all_messages -> heard s p) ->
  reaches all_messages F -> forall k t, k < W -> beyond (tr_progress (st_tracker s k)) t -> beyond F t.
Proof.
  intros I HR HS HH Hr. induction Hr as [|F p Hr IH Hp Hl]; intros k t Hk Hb; [apply min_beyond|].
  destruct (HH p Hp) as [(w & Hw & H)|H]; [rewrite HS in H by auto; destruct H|]. destruct (H k Hk) as [H'|[H'|H']]; auto.
  - destruct (HR k Hk) as (_ & _ & _ & E & _). rewrite E in H'. destruct H'.
  - pose proof (ti_drained _ _ _ _ (si_tracker _ _ I k Hk) _ H') as Hd. cbn [share p_lower] in Hd. rewrite (proj2 (ac_le_spec _ _)) in Hd; [discriminate|]. intros x Hx. apply Hl. apply (IH k); auto.
Qed.
Lemma rest_learned f s F : src_inv f s -> at_rest W s -> incl all (emitted s) -> (forall p, In (Statement p) all_messages -> heard s p) ->
  reaches all_messages F -> forall q t, q < W -> beyond (learned s q) t -> beyond F t.
Proof.
  intros I HR HE HH Hr q t Hq Hb.
  assert (Hd : (exists w, w < W /\ st_caps s w = []) \/ forall w, w < W -> st_source s w = []).
  { clear -HR. induction W as [|n IH]; [right; intros w Hw; lia|]. destruct IH as [(w & Hw & E)|IH].
    - intros w Hw. destruct (HR w) as (A & B & C & D' & G); [lia|]. split; [auto|split; [auto|split; [auto|split; [auto|]]]]. intros p Hp. apply G. lia.
    - left. exists w. split; [lia|auto].
    - destruct (HR n) as ([E|E] & _); [lia| |left; exists n; split; [lia|auto]]. right. intros w Hw. destruct (Nat.eq_dec w n) as [->|]; auto. apply IH. lia. }
  destruct Hd as [(w & Hw & E)|HS]; [destruct (rest_caps_nil f s w q I HR Hw Hq E t Hb)|].
  apply (learned_beyond f s q t I Hq) in Hb as (k & Hk & Hb).
  assert (Ef : f k q = tr_reported (st_tracker s k)).
  { destruct (HR q Hq) as (_ & _ & _ & _ & F1). pose proof (si_feedback _ _ I k q Hk Hq) as L1. rewrite F1 in L1 by auto. exact L1. }
  rewrite Ef in Hb. pose proof (si_tracker _ _ I k Hk) as TI. apply (ti_bound _ _ _ _ TI), tr_bound_beyond in Hb.
  apply (rest_reaches f s F I HR HS HH Hr k t Hk). destruct Hb as [Hb|(y & Hle & Hw)]; auto. exfalso.
  pose proof (tw_counts _ _ _ _ (ti_weak _ _ _ _ TI) y) as Hc. destruct (HR k Hk) as (_ & _ & E & _). rewrite E in Hc. unfold expected in Hc.
  assert (Hcnt : count_at all y <= count_at (emitted s) y) by (apply (sub_count (emitted s) all y); [apply all_nodup|auto]).
  assert (H0 : weight (concat []) y = 0%Z) by reflexivity. rewrite H0 in Hc. destruct (wt y =? k); [|lia]. destruct (ac_less_equal _ y); lia.
Qed.
End Rest.
End SourceP.
