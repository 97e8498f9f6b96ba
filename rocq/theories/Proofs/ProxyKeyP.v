(** The proxy reduce, for one key: what is accumulated at each moment, and what identifiers stand for. *)
From Coq Require Import Sorting.Sorted.
From Verif Require Export Proofs.DiscoverResultP Spec.ProxyReduceSpec.
From Verif Require Import Base.Order.

Section Replayed.
Context {I T R : Type} {OI : Ord I} {TT : Time T} {DR : Diff R}.
Notation update := (I * T * R)%type.
(** a replay, as it is seen from the moments to come *)
Definition replayed (h : ValueHistory I T R) (todo : list T) (all : list update) : Prop :=
  exists d rest, replays h rest /\ (forall t, In t todo -> forall v, acc (d ++ rest) v t = acc all v t) /\ (forall t, In t todo -> forall v, acc (vh_buffer h) v t = acc d v t).

Lemma replayed_load (all : list update) (todo : list T) : exists h, load_iter all (hd_error (suffix_meet todo)) = Some h /\ replayed h todo all.
Proof.
  destruct (load_iter_ok all (hd_error (suffix_meet todo))) as (h & us & E1 & E2 & E3 & E4). destruct (vh_build_ok _ _ E2) as (h' & rest & B1 & B2 & _ & B4 & B5). rewrite E3 in B1. injection B1 as <-.
  exists h. split; [exact E1|]. exists [], rest. split; [auto|]. split; [|intros; rewrite B2; auto]. intros t Ht v. cbn [app].
  rewrite (acc_perm _ _ v t B4), (acc_same_weights _ _ v t E4). apply acc_advanced. intros y Ey. pose proof (suffix_meet_hd todo) as H. rewrite Ey in H. rewrite Forall_forall in H. auto.
Qed.
Lemma skipn_prefix_gt (t : T) (rest : list update) : StronglySorted (fun u1 u2 => le (snd (fst u1)) (snd (fst u2))) rest ->
  forall u, In u (skipn (prefix_len (fun u => leb (snd (fst u)) t) rest) rest) -> tle (snd (fst u)) t = false.
Proof.
  induction 1 as [|u0 rest HS IH HF]; [intros u []|]. cbn [prefix_len]. destruct (leb (snd (fst u0)) t) eqn:E; [apply IH|]. intros u Hu. cbn [skipn] in Hu.
  assert (L : lt t (snd (fst u))).
  { apply leb_gt in E. destruct Hu as [<-|Hu]; auto. rewrite Forall_forall in HF. eapply lt_le_trans; [exact E|]. apply (HF _ Hu). }
  destruct (tle (snd (fst u)) t) eqn:Lt; auto. apply tle_le in Lt. destruct (lt_irrefl _ (lt_le_trans _ _ _ L Lt)).
Qed.
Lemma replayed_step h t todo m (all : list update) : replayed h (t :: todo) all -> Forall (fun x => tle m x = true) (t :: todo) ->
  exists h', vh_step_through h t = Some h' /\ replayed (vh_advance_buffer_by h' m) todo all /\ forall v, acc (vh_buffer (vh_advance_buffer_by h' m)) v t = acc all v t.
Proof.
  intros (d & rest & H1 & H2 & H3) Hm. destruct (replays_step_while (fun t' => leb t' t) (length (vh_history h)) h rest H1) as (k & h' & E & Ek & B & D & R').
  { rewrite (replays_length _ _ H1). auto. }
  exists h'. unfold vh_step_through. rewrite E. split; [reflexivity|].
  assert (A : forall t0, In t0 (t :: todo) -> forall v, acc (vh_buffer (vh_advance_buffer_by h' m)) v t0 = acc (d ++ firstn k rest) v t0).
  { intros t0 Ht v. cbn [vh_advance_buffer_by vh_buffer]. rewrite (acc_same_weights _ _ v t0 (consolidate_weight _)). rewrite Forall_forall in Hm.
    rewrite (acc_advance (vh_buffer h') m v t0 (Hm t0 Ht)), B, !acc_app, (H3 t0 Ht). auto. }
  split.
  - exists (d ++ firstn k rest), (skipn k rest). split; [apply replays_advance; auto|]. split; intros t0 Ht v.
    + rewrite <- app_assoc, firstn_skipn. apply H2. right; auto.
    + apply A. right; auto.
  - intros v. rewrite A by (left; auto). rewrite <- (H2 t (or_introl eq_refl)). rewrite <- (firstn_skipn k rest) at 2. rewrite !acc_app. f_equal.
    rewrite (acc_none (skipn k rest)); [rewrite dplus_0_r; auto|]. subst k. apply skipn_prefix_gt. apply (rp_sorted _ _ H1).
Qed.
End Replayed.

Section KeyP.
Context {T R1 R2 H I : Type} {OH : Ord H} {OI : Ord I} {TT : Time T} {D1 : Diff R1} {D2 : Diff R2}.
Notation state := (KeyState T R1 R2 H I).
Record key_ok (inp : list (I * T * R1)) (outp prod : list (I * T * R2)) (todo : list T) (st : state) : Prop := {
  ko_moments : ks_moments st = todo; ko_meets : ks_meets st = suffix_meet todo;
  ko_in : replayed (ks_in st) todo inp; ko_out : replayed (ks_out st) todo outp;
  ko_prod : forall t, In t todo -> forall v, acc (ks_produced st) v t = acc prod v t }.

Lemma accum_at_weight {R} {DR : Diff R} (l : list (I * T * R)) t v : weight (accum_at l t) v = acc l v t.
Proof. unfold accum_at. rewrite consolidate_weight. apply weight_values_at. Qed.

Lemma key_step_ok inp outp prod t todo st : key_ok inp outp prod (t :: todo) st ->
  exists st', key_step st = Some (st', t) /\ ks_key st' = ks_key st /\ key_ok inp outp prod todo st' /\
    (forall v, weight (accum_at (vh_buffer (ks_in st')) t) v = acc inp v t) /\
    (forall v, weight (accum_at (vh_buffer (ks_out st') ++ ks_produced st') t) v = acc (outp ++ prod) v t).
Proof.
  intros [E1 E2 Ei Eo Ep]. unfold key_step. rewrite E1, E2. pose proof (suffix_meet_hd (t :: todo)) as HM. pose proof (suffix_meet_skipn 1 (t :: todo)) as HS.
  destruct (suffix_meet (t :: todo)) as [|m ms] eqn:Em; [discriminate HM|]. cbn [hd_error skipn] in *.
  destruct (replayed_step _ _ _ m _ Ei HM) as (hi & S1 & S2 & S3). destruct (replayed_step _ _ _ m _ Eo HM) as (ho & O1 & O2 & O3).
  rewrite S1, O1. eexists. split; [reflexivity|]. cbn [ks_key ks_in ks_out ks_produced ks_moments ks_meets]. split; [auto|].
  assert (A : forall x, In x (t :: todo) -> forall v, acc (consolidate (A:=I*T) (map (advance_by_meet m) (ks_produced st))) v x = acc prod v x).
  { intros x Hx v. rewrite (acc_same_weights _ _ v x (consolidate_weight _)). rewrite Forall_forall in HM. rewrite <- (Ep x Hx).
    change (map (advance_by_meet m) (ks_produced st)) with (map (advance_to m) (ks_produced st)). apply acc_advance. auto. }
  split; [|split].
  - constructor; cbn [ks_key ks_in ks_out ks_produced ks_moments ks_meets]; auto. intros x Hx. apply A. right; auto.
  - intros v. rewrite accum_at_weight. apply S3.
  - intros v. rewrite accum_at_weight, !acc_app, O3, A; auto. left; auto.
Qed.
Lemma key_produces inp outp prod todo (st : state) cs : key_ok inp outp prod todo st ->
  key_ok inp outp (prod ++ cs) todo {| ks_key := ks_key st; ks_moments := ks_moments st; ks_meets := ks_meets st; ks_in := ks_in st; ks_out := ks_out st; ks_produced := ks_produced st ++ cs |}.
Proof. intros [? ? ? ? Ep]. constructor; auto. cbn [ks_produced]. intros t Ht v. rewrite !acc_app, Ep; auto. Qed.
End KeyP.

(** ** What identifiers stand for *)
Section Named.
Context {K T H I : Type} {OK : Ord K} {OH : Ord H} {OI : Ord I} {TT : Time T}.
Notation meaning := (meaning (K:=K) (H:=H) (I:=I)).
Definition rehash {R} (h : H) (l : list (I * T * R)) : bridge H I T R := map (fun u => (h, fst (fst u), snd (fst u), snd u)) l.
Definition tnamed {V R} (mn : meaning V) (h : H) (l : list (I * T * R)) : list (K * V * T * R) := shown mn (rehash h l).

Context {V R : Type} {OV : Ord V} {DR : Diff R}.
Implicit Type mn : meaning V.
Lemma named_app mn h (a b : list (I * R)) : named mn h (a ++ b) = named mn h a ++ named mn h b.
Proof. apply flat_map_app. Qed.
Lemma shown_app mn (a b : bridge H I T R) : shown mn (a ++ b) = shown mn a ++ shown mn b.
Proof. apply flat_map_app. Qed.
Lemma tnamed_app mn h (a b : list (I * T * R)) : tnamed mn h (a ++ b) = tnamed mn h a ++ tnamed mn h b.
Proof. unfold tnamed, rehash. rewrite map_app. apply shown_app. Qed.
Definition stands mn (kv : K * V) (h : H) (i : I) : bool := match mn h i with Some kv' => eqb kv' kv | None => false end.
Lemma named_lsum mn h (l : list (I * R)) kv : weight (named mn h l) kv = lsum (fun i d => if stands mn kv h i then d else dzero) l.
Proof.
  induction l as [|x l IH]; auto. unfold named, lsum, stands in *. cbn [flat_map map]. rewrite weight_app, IH. destruct (mn h (fst x)) as [kv'|]; [rewrite weight_one|rewrite weight_nil]; reflexivity.
Qed.
Lemma named_same_weights mn h (l l' : list (I * R)) : same_weights l l' -> same_weights (named mn h l) (named mn h l').
Proof.
  intros HW kv. rewrite !named_lsum. apply lsum_same_weights; auto.
  - intros i; destruct (stands mn kv h i); auto.
  - intros i r1 r2. destruct (stands mn kv h i); auto. symmetry. apply dplus_0_l.
Qed.
Lemma eqb_pairs {A B} {OA : Ord A} {OB : Ord B} (a : A) (b : B) (x : A * B) : eqb (a, b) x = eqb a (fst x) && eqb b (snd x).
Proof.
  destruct x as [a' b']. cbn [fst snd]. destruct (eqb_spec (a, b) (a', b')) as [E|N].
  - inversion E; subst. rewrite !eqb_refl. auto.
  - destruct (eqb_spec a a') as [->|]; destruct (eqb_spec b b') as [->|]; auto.
Qed.
Lemma shown_same_weights mn (l l' : bridge H I T R) : same_weights (A:=H*I*T) l l' -> same_weights (A:=K*V*T) (shown mn l) (shown mn l').
Proof.
  intros HW kvt. assert (E : forall l : bridge H I T R, weight (A:=K*V*T) (shown mn l) kvt = lsum (fun (x : H * I * T) d => if stands mn (fst kvt) (fst (fst x)) (snd (fst x)) && eqb (snd x) (snd kvt) then d else dzero) l).
  { intros l0. induction l0 as [|x l0 IH]; auto. match goal with |- _ = lsum ?f (x :: l0) => change (lsum f (x :: l0)) with (dplus (f (fst x) (snd x)) (lsum f l0)) end.
    change (shown mn (x :: l0)) with ((match mn (fst (fst (fst x))) (snd (fst (fst x))) with Some kv => [(kv, snd (fst x), snd x)] | None => [] end) ++ shown mn l0).
    rewrite (weight_app (A:=K*V*T)), IH. unfold stands. f_equal. destruct (mn _ _) as [kv'|]; [|reflexivity]. rewrite (weight_one (A:=K*V*T)), eqb_pairs. auto. }
  rewrite !E. apply lsum_same_weights; auto.
  - intros i; destruct (_ && _); auto.
  - intros i r1 r2. destruct (_ && _); auto. symmetry. apply dplus_0_l.
Qed.
Lemma tnamed_acc mn h (l : list (I * T * R)) kv t : acc (tnamed mn h l) kv t = weight (named mn h (values_at t l)) kv.
Proof.
  rewrite <- weight_values_at. f_equal. unfold tnamed, shown, rehash, named, values_at. induction l as [|u l IH]; auto. cbn [map flat_map fst snd filter].
  rewrite filter_app, map_app, IH. destruct (mn h (fst (fst u))) as [kv'|] eqn:E; cbn [filter map fst snd app].
  - destruct (tle (snd (fst u)) t); cbn [map fst snd flat_map app]; [rewrite E|]; auto.
  - destruct (tle (snd (fst u)) t); cbn [map fst snd flat_map app]; [rewrite E|]; auto.
Qed.
Lemma tnamed_acc_weight mn h (l : list (I * T * R)) (a : list (I * R)) t : (forall i, weight a i = acc l i t) -> forall kv, weight (named mn h a) kv = acc (tnamed mn h l) kv t.
Proof. intros E kv. rewrite tnamed_acc. apply named_same_weights. intros i. rewrite E, weight_values_at. auto. Qed.
Lemma tnamed_acc_ext mn h (l : list (I * T * R)) t t' : (forall i, acc l i t = acc l i t') -> forall kv, acc (tnamed mn h l) kv t = acc (tnamed mn h l) kv t'.
Proof. intros E kv. rewrite !tnamed_acc. apply named_same_weights. intros i. rewrite !weight_values_at. auto. Qed.
Lemma named_extends mn mn' h (l : list (I * R)) : extends mn mn' -> all_named mn h l -> named mn' h l = named mn h l /\ all_named mn' h l.
Proof.
  intros X. induction 1 as [|x l Hx HF [IH1 IH2]]; [split; [auto|constructor]|]. unfold named in *. cbn [flat_map]. rewrite IH1. destruct (mn h (fst x)) as [kv|] eqn:E; [|destruct (Hx eq_refl)].
  rewrite (X _ _ _ E). split; [auto|]. constructor; auto. rewrite (X _ _ _ E). discriminate.
Qed.
Lemma shown_extends mn mn' (p : bridge H I T R) : extends mn mn' -> all_shown mn p -> shown mn' p = shown mn p /\ all_shown mn' p.
Proof.
  intros X. induction 1 as [|x l Hx HF [IH1 IH2]]; [split; [auto|constructor]|]. unfold shown in *. cbn [flat_map]. rewrite IH1. destruct (mn _ _) as [kv|] eqn:E in Hx |- *; [|destruct (Hx eq_refl)].
  rewrite (X _ _ _ E). split; [auto|]. constructor; auto. rewrite (X _ _ _ E). discriminate.
Qed.
Lemma shown_times mn (p : bridge H I T R) : all_shown mn p -> map (fun u => snd (fst u)) (shown mn p) = map (fun u => snd (fst u)) p.
Proof. induction 1 as [|x l Hx HF IH]; auto. unfold shown in *. cbn [flat_map map]. rewrite map_app, IH. destruct (mn _ _); [auto|destruct (Hx eq_refl)]. Qed.
(** only keys with the hash are concerned *)
Lemma shown_only hash mn (p : bridge H I T R) k v t : sound hash mn -> (forall u, In u p -> fst (fst (fst u)) <> hash k) -> acc (shown mn p) (k, v) t = dzero.
Proof.
  intros S Hp. induction p as [|u p IH]; auto. unfold shown in *. cbn [flat_map]. rewrite acc_app, IH by (intros u' Hu'; apply Hp; right; auto). rewrite dplus_0_r.
  destruct (mn _ _) as [[k' v']|] eqn:E; auto. rewrite acc_cons', acc_nil. cbn [fst snd]. destruct (eqb_spec (k', v') (k, v)) as [Ek|]; [|cbn [andb]; apply dplus_0_l].
  inversion Ek; subst. destruct (Hp u (or_introl eq_refl)). symmetry. eapply S; eauto.
Qed.
Lemma shown_of_hash hash mn (p : bridge H I T R) k v t : sound hash mn ->
  acc (shown mn p) (k, v) t = acc (tnamed mn (hash k) (unhash (filter (fun u => eqb (fst (fst (fst u))) (hash k)) p))) (k, v) t.
Proof.
  intros S. unfold tnamed. induction p as [|u p IH]; auto. change (u :: p) with ([u] ++ p). rewrite shown_app, acc_app, IH. cbn [filter app].
  destruct (eqb_spec (fst (fst (fst u))) (hash k)) as [E|N].
  - cbn [unhash rehash map]. unfold shown at 3. cbn [flat_map]. rewrite acc_app. f_equal. unfold shown. cbn [flat_map fst snd]. rewrite app_nil_r, E. auto.
  - rewrite (shown_only hash mn [u] k v t S); [apply dplus_0_l|]. intros u' [<-|[]]. auto.
Qed.
End Named.
