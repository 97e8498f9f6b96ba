(** lookup_map: at all times what it has sent, with the answers to the prefixes it has stashed, are the answers to all prefixes. *)
From Verif Require Export Spec.LookupSpec Proofs.HalfJoinP.

(** ** What a key has at a time *)
Section Values.
Context {K V P T R R2 D R3 : Type} {OK : Ord K} {OV : Ord V} {TT : Time T} {DR : Diff R} {D2 : Diff R2} {D3 : Diff R3}.
Variable key_selector : P -> K.
Variable output_func : P -> R -> V -> R2 -> D * R3.
Notation prefix := (P * T * R)%type.
Notation lookup := (lookup key_selector output_func).
Notation lookups := (lookups key_selector output_func).
Notation emit := (lk_emit output_func).

Lemma values_at_nodup (us : list (K * V * T * R2)) k t : NoDup (values_at us k t).
Proof. apply NoDup_filter, strictly_sorted_nodup, sort_set_sorted. Qed.
Lemma acc_no_value (us : list (K * V * T * R2)) k v t : ~ In v (map (fun u => snd (fst (fst u))) (filter (fun u => eqb (fst (fst (fst u))) k) us)) -> acc (D:=K*V) us (k, v) t = dzero.
Proof.
  intros H. unfold acc. assert (E : filter (fun u => eqb (fst (fst u)) (k, v) && tle (snd (fst u)) t) us = []); [|rewrite E; reflexivity].
  induction us as [|[[[k0 v0] t0] r0] us IH]; auto. cbn [filter fst snd] in *. destruct (eqb_spec (k0, v0) (k, v)) as [E|]; cbn [andb].
  - inversion E; subst. rewrite eqb_refl in H. destruct H. left; auto.
  - apply IH. intros Hi. apply H. destruct (eqb k0 k); [right|]; auto.
Qed.
Lemma values_at_in (us : list (K * V * T * R2)) k t v : In v (values_at us k t) <-> acc (D:=K*V) us (k, v) t <> dzero.
Proof.
  unfold values_at. rewrite filter_In, in_sort_set, negb_true_iff. rewrite <- not_true_iff_false, is_zero_spec. split; [tauto|]. intros H. split; [|auto].
  destruct (in_dec (fun a b => match eqb_spec a b with ReflectT _ e => left e | ReflectF _ n => right n end) v (map (fun u => snd (fst (fst u))) (filter (fun u : K * V * T * R2 => eqb (fst (fst (fst u))) k) us))); auto.
  destruct H. apply acc_no_value; auto.
Qed.
Lemma lookup_congr (us vs : list (K * V * T * R2)) p : (forall v, acc (D:=K*V) us (key_selector (fst (fst p)), v) (snd (fst p)) = acc (D:=K*V) vs (key_selector (fst (fst p)), v) (snd (fst p))) ->
  Permutation (lookup us p) (lookup vs p).
Proof.
  destruct p as [[pre t] r]. cbn [fst snd]. intros H. unfold LookupSpec.lookup.
  assert (E : forall l, flat_map (fun v => let '(dout, rout) := output_func pre r v (acc (D:=K*V) us (key_selector pre, v) t) in if is_zero rout then [] else [(dout, t, rout)]) l =
    flat_map (fun v => let '(dout, rout) := output_func pre r v (acc (D:=K*V) vs (key_selector pre, v) t) in if is_zero rout then [] else [(dout, t, rout)]) l).
  { intros l. apply flat_map_ext. intros v. rewrite H. auto. }
  rewrite E. apply Permutation_flat_map. apply NoDup_Permutation; [apply values_at_nodup|apply values_at_nodup|]. intros v. rewrite !values_at_in, H. reflexivity.
Qed.
Lemma lookups_congr (us vs : list (K * V * T * R2)) ps : Forall (fun p => forall v, acc (D:=K*V) us (key_selector (fst (fst p)), v) (snd (fst p)) = acc (D:=K*V) vs (key_selector (fst (fst p)), v) (snd (fst p))) ps ->
  Permutation (lookups us ps) (lookups vs ps).
Proof. induction 1 as [|p ps Hp _ IH]; simpl; auto. apply Permutation_app; auto. apply lookup_congr; auto. Qed.
Lemma lookups_app us a b : lookups us (a ++ b) = lookups us a ++ lookups us b.
Proof. apply flat_map_app. Qed.
Lemma lookups_perm us a b : Permutation a b -> Permutation (lookups us a) (lookups us b).
Proof. apply Permutation_flat_map. Qed.
Definition nz (ps : list prefix) : list prefix := filter (fun p => negb (is_zero (snd p))) ps.
Lemma lookups_nz us ps : quiet output_func -> lookups us (nz ps) = lookups us ps.
Proof.
  intros HQ. induction ps as [|[[pre t] r] ps IH]; auto. unfold nz. cbn [filter snd]. destruct (is_zero r) eqn:E; cbn [negb]; [|simpl; f_equal; exact IH].
  unfold LookupSpec.lookups in *. cbn [flat_map]. fold (nz ps). rewrite IH. apply is_zero_spec in E. subst r.
  assert (Ez : lookup us (pre, t, dzero) = []); [|rewrite Ez; auto].
  unfold LookupSpec.lookup. generalize (values_at us (key_selector pre) t). intros l. induction l as [|v l IHl]; auto. cbn [flat_map].
  destruct (output_func pre dzero v (acc us (key_selector pre, v) t)) as [d r] eqn:Eo. assert (r = dzero) as -> by (change r with (snd (d, r)); rewrite <- Eo; apply HQ). rewrite is_zero_dzero. exact IHl.
Qed.
Lemma nz_app a b : nz (a ++ b) = nz a ++ nz b.
Proof. apply filter_app. Qed.

(** ** What the trie of the trace gives *)
Lemma total_ok (t : T) (ts : list (T * R2)) z : fold_left (fun count td => if tle (fst td) t then dplus count (snd td) else count) ts z = dplus z (dsum (map snd (filter (fun td => tle (fst td) t) ts))).
Proof.
  revert z. induction ts as [|[t0 r0] ts IH]; intros z; cbn [fold_left filter fst snd]; [symmetry; apply dplus_0_r|]. rewrite IH. destruct (tle t0 t); auto.
  cbn [map]. rewrite dsum_cons, dplus_assoc. auto.
Qed.
Lemma acc_vals (k : K) (v : V) t : forall vs : list (V * list (T * R2)), NoDup (map fst vs) -> forall ts, In (v, ts) vs ->
  acc (D:=K*V) (flat_map (fun vu => map (fun tr => (k, fst vu, fst tr, snd tr)) (snd vu)) vs) (k, v) t = dsum (map snd (filter (fun td => tle (fst td) t) ts)).
Proof.
  assert (One : forall v0 (ts : list (T * R2)), acc (D:=K*V) (map (fun tr => (k, v0, fst tr, snd tr)) ts) (k, v) t = if eqb v0 v then dsum (map snd (filter (fun td => tle (fst td) t) ts)) else dzero).
  { intros v0 ts. induction ts as [|[t0 r0] ts IH]; [destruct (eqb v0 v); reflexivity|]. cbn [map fst snd]. rewrite acc_cons, IH. cbn [fst snd].
    destruct (eqb_spec (k, v0) (k, v)) as [Ek|Ek].
    - inversion Ek; subst. rewrite eqb_refl. cbn [andb filter fst]. destruct (tle t0 t); cbn [map]; [|auto]. rewrite dsum_cons. auto.
    - destruct (eqb_spec v0 v); [subst; contradiction|]. cbn [andb]. auto. }
  induction vs as [|[v0 ts0] vs IH]; intros HN ts Hi; [destruct Hi|]. cbn [flat_map fst snd map] in *. rewrite acc_app, One. inversion HN as [|? ? Hn HN']; subst.
  assert (Zero : ~ In v (map fst vs) -> acc (D:=K*V) (flat_map (fun vu => map (fun tr => (k, fst vu, fst tr, snd tr)) (snd vu)) vs) (k, v) t = dzero).
  { clear - One. induction vs as [|[v1 ts1] vs IH]; auto. intros Hn. cbn [flat_map fst snd map In] in *. rewrite acc_app, One, IH by tauto. destruct (eqb_spec v1 v); [subst; tauto|]. apply dplus_0_l. }
  destruct Hi as [Hi|Hi].
  - inversion Hi; subst. rewrite eqb_refl, Zero by auto. apply dplus_0_r.
  - rewrite (IH HN' ts Hi). destruct (eqb_spec v0 v) as [->|]; [exfalso; apply Hn; apply (in_map fst) in Hi; auto|]. apply dplus_0_l.
Qed.
Lemma acc_flat_under (U : trie K V T R2) k v t : acc (D:=K*V) (CursorSpec.flat U) (k, v) t = acc (D:=K*V) (flat_map (fun vu => map (fun tr => (k, fst vu, fst tr, snd tr)) (snd vu)) (vals_under U k)) (k, v) t.
Proof.
  unfold CursorSpec.flat, vals_under. induction U as [|[k0 vs] U IH]; auto. cbn [flat_map fst snd]. rewrite flat_map_app, !acc_app, IH. f_equal. clear IH.
  destruct (eqb_spec k0 k) as [->|Hk]; auto. cbn [flat_map]. rewrite acc_nil. induction vs as [|[v0 ts] vs IH]; auto. cbn [flat_map fst snd]. rewrite acc_app, IH, dplus_0_r. clear IH.
  induction ts as [|[t0 r0] ts IH]; auto. cbn [map fst snd]. rewrite acc_cons, IH. cbn [fst snd]. destruct (eqb_spec (k0, v0) (k, v)) as [E|]; [congruence|]. auto.
Qed.
Lemma vals_under_map (f : K -> list (V * list (T * R2))) (ks : list K) k : NoDup ks -> (forall k0, NoDup (map fst (f k0))) -> NoDup (map fst (vals_under (map (fun k0 => (k0, f k0)) ks) k)).
Proof.
  intros HN Hf. assert (E : vals_under (map (fun k0 => (k0, f k0)) ks) k = [] \/ vals_under (map (fun k0 => (k0, f k0)) ks) k = f k); [|destruct E as [->| ->]; [constructor|auto]].
  assert (Z : ~ In k ks -> vals_under (map (fun k0 => (k0, f k0)) ks) k = []).
  { clear. induction ks as [|k0 ks IH]; auto. intros Hn. unfold vals_under in *. cbn [map flat_map fst snd In] in *. destruct (eqb_spec k0 k); [tauto|]. apply IH. tauto. }
  induction HN as [|k0 ks Hn HN IH]; [auto|]. unfold vals_under in *. cbn [map flat_map fst snd In] in *. destruct (eqb_spec k0 k) as [->|].
  - right. rewrite <- (app_nil_r (f k)) at 2. f_equal. clear - Hn. induction ks as [|k1 ks IH]; auto. cbn [map flat_map fst snd In] in *. destruct (eqb_spec k1 k); [tauto|]. apply IH. tauto.
  - apply IH. intros H. apply Z. tauto.
Qed.
Lemma emits_ok (U : trie K V T R2) (p : prefix) (us : list (K * V * T * R2)) : NoDup (map fst (vals_under U (key_selector (fst (fst p))))) ->
  (forall v, acc (D:=K*V) (CursorSpec.flat U) (key_selector (fst (fst p)), v) (snd (fst p)) = acc (D:=K*V) us (key_selector (fst (fst p)), v) (snd (fst p))) ->
  Permutation (flat_map (fun e => emit p (fst e) (snd e)) (vals_under U (key_selector (fst (fst p))))) (lookup us p).
Proof.
  intros HN HA. eapply perm_trans; [|apply lookup_congr; exact HA]. destruct p as [[pre t] r]. cbn [fst snd] in *. set (k := key_selector pre) in *. unfold LookupSpec.lookup. fold k.
  set (g := fun v => let '(dout, rout) := output_func pre r v (acc (D:=K*V) (CursorSpec.flat U) (k, v) t) in if is_zero rout then [] else [(dout, t, rout)]).
  set (vs := vals_under U k) in *.
  assert (E : forall l, (forall e, In e l -> In e vs) -> flat_map (fun e => emit (pre, t, r) (fst e) (snd e)) l = flat_map g (filter (fun v => negb (is_zero (acc (D:=K*V) (CursorSpec.flat U) (k, v) t))) (map fst l))).
  { induction l as [|[v ts] l IH]; intros Hl; auto. cbn [flat_map map fst snd filter]. rewrite IH by (intros e He; apply Hl; right; auto).
    unfold lk_emit at 1. rewrite total_ok, dplus_0_l.
    assert (Ea : acc (D:=K*V) (CursorSpec.flat U) (k, v) t = dsum (map snd (filter (fun td => tle (fst td) t) ts))) by (rewrite acc_flat_under; apply acc_vals; [exact HN|apply Hl; left; auto]).
    rewrite <- Ea. destruct (is_zero (acc (CursorSpec.flat U) (k, v) t)); cbn [negb app]; auto. }
  rewrite E by auto. apply Permutation_flat_map. apply NoDup_Permutation; [apply NoDup_filter; auto|apply values_at_nodup|].
  intros v. rewrite values_at_in, filter_In, negb_true_iff, <- not_true_iff_false, is_zero_spec. split; [tauto|]. intros Hz. split; [|auto].
  destruct (in_dec (fun a b => match eqb_spec a b with ReflectT _ e => left e | ReflectF _ n => right n end) v (map fst vs)) as [|Hn]; auto. exfalso. apply Hz.
  rewrite acc_flat_under. fold vs. clear - Hn. induction vs as [|[v1 ts1] vs IH]; auto. cbn [flat_map fst snd map In] in *. rewrite acc_app, IH by tauto. rewrite dplus_0_r.
  apply acc_no_value. intros Hi. apply in_map_iff in Hi as (u & Eu & Hu). apply filter_In in Hu as [Hu _]. apply in_map_iff in Hu as (x & <- & _). cbn [fst snd] in Eu. tauto.
Qed.
End Values.

(** ** One activation *)
Section Process.
Context {B M C K V P T R R2 D R3 : Type} {OK : Ord K} {OV : Ord V} {TT : Time T} {DR : Diff R} {D2 : Diff R2} {D3 : Diff R3}.
Variable ops : BatchOps B M T. Variable contents : B -> list (K * V * T * R2). Variable laws : BatchLaws (D:=K*V) ops contents.
Variable cops : CursorOps B C K V T R2. Variable new : C.
Hypothesis HR : readable ops contents laws cops new.
Variable key_selector : P -> K.
Variable output_func : P -> R -> V -> R2 -> D * R3.
Hypothesis HQ : quiet output_func.
Notation prefix := (P * T * R)%type.
Notation update := (D * T * R3)%type.
Notation lookup := (lookup key_selector output_func).
Notation lookups := (lookups key_selector output_func).
Notation emit := (lk_emit output_func).
Definition lkey (p : prefix) : K := key_selector (fst (fst p)).
Definition ltime (p : prefix) : T := snd (fst p).

Inductive lby_key : list prefix -> Prop :=
| lbk_nil : lby_key []
| lbk_cons : forall p ps, Forall (fun q => le (lkey p) (lkey q)) ps -> lby_key ps -> lby_key (p :: ps).
Lemma lk_insert_perm p (l : list prefix) : Permutation (lk_insert key_selector p l) (p :: l).
Proof. induction l as [|q l IH]; cbn [lk_insert]; auto. destruct (leb _ _); auto. eapply perm_trans; [apply perm_skip, IH|apply perm_swap]. Qed.
Lemma lk_sort_perm (l : list prefix) : Permutation (lk_sort key_selector l) l.
Proof. induction l as [|p l IH]; simpl; auto. eapply perm_trans; [apply lk_insert_perm|auto]. Qed.
Lemma lk_sort_by_key (l : list prefix) : lby_key (lk_sort key_selector l).
Proof.
  induction l as [|p l IH]; cbn [lk_sort fold_right]; [constructor|]. fold (lk_sort key_selector l). induction IH as [|q qs Hq Hs IHs]; cbn [lk_insert].
  - constructor; constructor.
  - fold (lkey p). fold (lkey q). destruct (leb (lkey p) (lkey q)) eqn:E.
    + apply leb_le in E. constructor; [|constructor; auto]. constructor; auto. eapply Forall_impl; [|exact Hq]. cbv beta. intros x Hx. eapply le_trans; eauto.
    + constructor; auto. eapply Permutation_Forall; [apply Permutation_sym, lk_insert_perm|]. constructor; auto. apply leb_gt in E. apply le_lteq; auto.
Qed.

Definition ready (F : list T) (p : prefix) : bool := negb (ac_less_equal F (ltime p)).
Definition marked (F : list T) (p : prefix) : prefix := if ready F p then (fst p, dzero) else p.
Lemma lk_prefixes_ok tbs (U : trie K V T R2) fuel F (us : list (K * V * T * R2)) : strictly_sorted (map fst U) -> Forall (fun e => length (snd e) <= fuel) U ->
  (forall k, NoDup (map fst (vals_under U k))) ->
  forall ps tc j jv, lby_key ps -> shows (cl_ops cops) tbs U tc {| kp := j; vp := jv |} -> Forall (fun p => before U j (lkey p)) ps ->
  Forall (fun p => forall v, acc (D:=K*V) (CursorSpec.flat U) (lkey p, v) (ltime p) = acc (D:=K*V) us (lkey p, v) (ltime p)) ps ->
  exists outs, lk_prefixes cops key_selector output_func fuel tbs F tc ps = Some (map (marked F) ps, outs) /\
    Permutation outs (lookups us (filter (ready F) ps)) /\ Forall (fun u : update => exists p, In p ps /\ snd (fst u) = ltime p) outs.
Proof.
  intros HS HF HN. induction ps as [|p ps IH]; intros tc j jv HK HT HB HA; cbn [lk_prefixes].
  { exists []. repeat split; auto; constructor. }
  inversion HK as [|? ? Hle HK']; subst. inversion HB as [|? ? Hb HB']; subst. inversion HA as [|? ? Ha HA']; subst. destruct p as [[pre t] r]. set (p := (pre, t, r)) in *.
  cbn [map filter]. unfold marked at 1. change (negb (ac_less_equal F t)) with (ready F p). destruct (ready F p) eqn:Eg.
  - destruct (look_up_ok cops (emit p) tbs U fuel j jv tc (key_selector pre) HS HF HT Hb) as (tc1 & j1 & jv1 & E1 & T1 & B1). rewrite E1.
    destruct (IH tc1 j1 jv1 HK' T1) as (outs & E & P1 & P2).
    { eapply Forall_impl; [|exact Hle]. cbv beta. intros q Hq n k0 Hn E0. eapply lt_le_trans; [eapply B1; eauto|exact Hq]. }
    { exact HA'. }
    rewrite E. eexists. split; [reflexivity|]. split.
    + cbn [LookupSpec.lookups flat_map]. apply Permutation_app; [|exact P1]. apply (emits_ok key_selector output_func U p us); [apply HN|exact Ha].
    + apply Forall_app. split.
      * apply Forall_forall. intros u Hu. exists p. split; [left; auto|]. apply in_flat_map in Hu as ([v ts] & _ & Hu). unfold lk_emit, p in Hu. cbn [fst snd] in Hu.
        destruct (is_zero _); [destruct Hu|]. destruct (output_func _ _ _ _) as [d r0]. destruct (is_zero r0); [destruct Hu|]. destruct Hu as [<-|[]]. reflexivity.
      * eapply Forall_impl; [|exact P2]. cbv beta. intros u (q & Hq & Eq). exists q. split; [right|]; auto.
  - destruct (IH tc j jv HK' HT HB' HA') as (outs & E & P1 & P2). rewrite E. exists outs. split; [reflexivity|]. split; [exact P1|].
    eapply Forall_impl; [|exact P2]. cbv beta. intros u (q & Hq & Eq). exists q. split; [right|]; auto.
Qed.
Lemma nz_marked F (ps : list prefix) : nz (map (marked F) ps) = nz (filter (fun p => negb (ready F p)) ps).
Proof.
  induction ps as [|p ps IH]; auto. unfold nz in *. cbn [map filter]. assert (Em : marked F p = if ready F p then (fst p, dzero) else p) by reflexivity. rewrite Em. destruct (ready F p); cbn [negb]; cbn [filter fst snd].
  - rewrite is_zero_dzero. cbn [negb]. exact IH.
  - destruct (is_zero (snd p)); cbn [negb]; rewrite IH; auto.
Qed.
Lemma nz_perm (a b : list prefix) : Permutation a b -> Permutation (nz a) (nz b).
Proof. unfold nz. induction 1 as [|x a b _ IH|x y a|a b c _ IH1 _ IH2]; cbn [filter]; auto; [destruct (negb _); auto|destruct (negb _), (negb _); auto; apply perm_swap|eapply perm_trans; eauto]. Qed.
Lemma nz_split (f : prefix -> bool) (ps : list prefix) : Permutation (nz ps) (nz (filter f ps) ++ nz (filter (fun p => negb (f p)) ps)).
Proof.
  induction ps as [|p ps IH]; auto. unfold nz in *. cbn [filter]. destruct (f p); cbn [negb filter]; destruct (negb (is_zero (snd p))); cbn [app]; auto. apply Permutation_cons_app; auto.
Qed.
Lemma nz_nz (ps : list prefix) : nz (nz ps) = nz ps.
Proof. unfold nz. induction ps as [|p ps IH]; auto. cbn [filter]. destruct (negb (is_zero (snd p))) eqn:E; cbn [filter]; rewrite ?E, ?IH; auto. Qed.

Section Stash.
Variable s : Spine B M T. Variable bs : list B. Hypothesis Hs : reads ops contents laws s bs.
Variable F2 : list T.
Variable us : list (K * V * T * R2).
Definition lentry_ok (e : T * list prefix) : Prop := Forall (fun p => tle (fst e) (ltime p) = true) (snd e).

Lemma lk_stash_ok : forall stash, Forall lentry_ok stash ->
  Forall (fun e => Forall (fun p => forall v, acc (D:=K*V) (flat_map contents bs) (lkey p, v) (ltime p) = acc (D:=K*V) us (lkey p, v) (ltime p)) (snd e)) stash ->
  exists stash' outs A, lk_stash ops cops new key_selector output_func s F2 stash = Some (stash', outs) /\
    Permutation (nz (flat_map snd stash)) (A ++ nz (flat_map snd stash')) /\
    Forall (fun p => ~ beyond F2 (ltime p)) A /\
    Permutation (flat_map snd outs) (lookups us A) /\
    Forall (fun o => In (fst o) (map fst stash) /\ Forall (fun u : update => tle (fst o) (snd (fst u)) = true) (snd o)) outs /\
    Forall (fun e => In (fst e) (map fst stash) /\ lentry_ok e /\ Forall (fun p => beyond F2 (ltime p)) (snd e)) stash'.
Proof.
  destruct Hs as [Eb HB]. induction stash as [|[cap ps] stash IH]; intros HE HA; cbn [lk_stash].
  { exists [], [], []. repeat split; auto; constructor. }
  inversion HE as [|? ? H1 HE']; subst. inversion HA as [|? ? H2 HA']; subst. unfold lentry_ok in H1. cbn [fst snd] in H1, H2.
  destruct (IH HE' HA') as (stash' & outs & A & E & I1 & I2 & I3 & I4 & I5).
  destruct (negb (ac_less_equal F2 cap)) eqn:Eg.
  - rewrite Eb. destruct (cursor_list_no_seek ops contents laws cops new HR bs HB) as (tc & Ec & Pc). rewrite Ec.
    set (U := union_trie (tries contents bs)) in *. destruct (union_length contents bs) as [_ UL]. fold U in UL. rewrite (sum_len_contents ops contents laws bs HB).
    assert (HP : forall Q : prefix -> Prop, Forall Q ps -> Forall Q (lk_sort key_selector ps)) by (intros Q HF; eapply Permutation_Forall; [apply Permutation_sym, lk_sort_perm|exact HF]).
    destruct (lk_prefixes_ok bs U (length (flat_map contents bs)) F2 us (union_sorted contents bs) UL) with (ps := lk_sort key_selector ps) (tc := tc) (j := 0) (jv := 0) as (o1 & E1 & P1 & P2).
    + intros k. unfold U, union_trie. apply vals_under_map; [apply strictly_sorted_nodup, sort_set_sorted|]. intros k0. rewrite map_map. cbn [fst]. rewrite map_id. apply strictly_sorted_nodup, sort_set_sorted.
    + apply lk_sort_by_key.
    + apply shows_start. exact Pc.
    + apply Forall_forall. intros p _ n k0 Hn. lia.
    + apply HP. eapply Forall_impl; [|exact H2]. cbv beta. intros p Hp v. rewrite <- Hp. apply acc_same_weights. apply union_weights.
    + rewrite E1, E. eexists _, _, (nz (filter (ready F2) (lk_sort key_selector ps)) ++ A). split; [reflexivity|]. cbn [flat_map snd]. fold (nz (map (marked F2) (lk_sort key_selector ps))). rewrite nz_marked. split.
      { rewrite !nz_app, nz_nz. eapply perm_trans; [apply Permutation_app; [apply nz_perm, Permutation_sym, (lk_sort_perm ps)|exact I1]|].
        eapply perm_trans; [apply Permutation_app_tail, (nz_split (ready F2))|]. rewrite <- !app_assoc. apply Permutation_app_head. rewrite !app_assoc. apply Permutation_app_tail, Permutation_app_comm. }
      split.
      { apply Forall_app. split; [|exact I2]. apply Forall_forall. intros p Hp. apply filter_In in Hp as [Hp _]. apply filter_In in Hp as [_ Hp]. unfold ready in Hp. apply negb_true_iff in Hp. intros Hb. apply ac_less_equal_spec in Hb. congruence. }
      split; [rewrite lookups_app, (lookups_nz _ _ _ _ HQ); apply Permutation_app; auto|].
      split.
      { constructor; cbn [fst snd map].
        - split; [left; auto|]. eapply Forall_impl; [|exact P2]. cbv beta. intros u (p & Hp & ->). rewrite Forall_forall in H1. apply H1. eapply Permutation_in; [apply lk_sort_perm|exact Hp].
        - eapply Forall_impl; [|exact I4]. cbv beta. intros o [Ho Hu]. split; [right|]; auto. }
      constructor; cbn [fst snd map].
      * split; [left; auto|]. unfold lentry_ok. cbn [fst snd]. split.
        -- apply Forall_forall. intros p Hp. apply filter_In in Hp as [Hp _]. apply filter_In in Hp as [Hp _]. rewrite Forall_forall in H1. apply H1. eapply Permutation_in; [apply lk_sort_perm|exact Hp].
        -- apply Forall_forall. intros p Hp. apply filter_In in Hp as [Hp _]. apply filter_In in Hp as [_ Hp]. unfold ready in Hp. rewrite negb_involutive in Hp. apply ac_less_equal_spec; auto.
      * eapply Forall_impl; [|exact I5]. cbv beta. intros e [He Hu]. split; [right|]; auto.
  - rewrite E. exists ((cap, ps) :: stash'), outs, A. split; [reflexivity|]. cbn [flat_map snd]. split.
    { rewrite !nz_app. eapply perm_trans; [apply Permutation_app_head, I1|]. rewrite !app_assoc. apply Permutation_app_tail, Permutation_app_comm. }
    split; [auto|]. split; [auto|]. split; [eapply Forall_impl; [|exact I4]; cbv beta; intros o [Ho Hu]; split; [right|]; auto|].
    constructor; cbn [fst snd map].
    + split; [left; auto|]. split; [exact H1|]. apply negb_false_iff, ac_less_equal_spec in Eg. eapply Forall_impl; [|exact H1]. cbv beta. intros p Hp. eapply beyond_mono; eauto.
    + eapply Forall_impl; [|exact I5]. cbv beta. intros e [He Hu]. split; [right|]; auto.
Qed.
End Stash.
End Process.

(** ** The operator *)
Section World.
Context {B M C K V P T R R2 D R3 : Type} {OK : Ord K} {OV : Ord V} {TT : Time T} {DR : Diff R} {D2 : Diff R2} {D3 : Diff R3}.
Variable ops : BatchOps B M T. Variable contents : B -> list (K * V * T * R2). Variable laws : BatchLaws (D:=K*V) ops contents.
Variable cops : CursorOps B C K V T R2. Variable new : C.
Hypothesis HR : readable ops contents laws cops new.
Variable key_selector : P -> K.
Variable output_func : P -> R -> V -> R2 -> D * R3.
Hypothesis HQ : quiet output_func.
Notation prefix := (P * T * R)%type.
Notation update := (D * T * R3)%type.
Notation lookups := (lookups key_selector output_func).
Notation lworld := (lworld B M P T R D R3).
Notation lstep := (lstep ops contents laws cops new key_selector output_func).
Notation lreaches := (lreaches ops contents laws cops new key_selector output_func).
Notation l_input := (l_input contents).
Notation activate := (l_activate ops cops new key_selector output_func).
Notation sub A B := (forall t, beyond A t -> beyond B t).

Definition lprotects (handle : option (list T * list T)) (ts : list T) : Prop := match handle with Some (HL, _) => sub ts HL | None => ts = [] end.
Record linv (w : lworld) (A : list prefix) : Prop := {
  li_side : side_inv ops contents laws (lw_in w);
  li_allowed : allowed (l_trace (lw_op w)) (sd_logical (lw_in w)) (sd_physical (lw_in w));
  li_asked : Permutation (nz (lw_asked w)) (A ++ nz (l_owed w));
  li_released : Forall (fun p => ~ beyond (sd_front (lw_in w)) (ltime p)) A;
  li_produced : Permutation (l_produced w) (lookups (l_input w) A);
  li_stash : Forall lentry_ok (l_stash (lw_op w));
  li_protects : lprotects (l_trace (lw_op w)) (lw_front w ++ map fst (l_stash (lw_op w)));
  li_out : Forall (fun o => Forall (fun u => tle (fst o) (snd (fst u)) = true) (snd o)) (lw_out w)
}.
Lemma lprotects_beyond handle ts e : lprotects handle ts -> beyond ts e -> exists HL HP, handle = Some (HL, HP) /\ beyond HL e /\ sub ts HL.
Proof. intros HP Hb. destruct handle as [[HL HP']|]; [|simpl in HP; subst; destruct (beyond_nil _ Hb)]. exists HL, HP'. simpl in HP. auto. Qed.

Lemma lstarts_inv handle w : lstarts ops contents laws handle w -> linv w [].
Proof.
  intros ((e & HB) & HA & HP & E1 & E2 & E3). constructor; rewrite ?E2; unfold l_owed, l_produced; rewrite ?E1, ?E2, ?E3; simpl; auto.
  - eapply begins_inv; eauto.
  - destruct handle as [L P0]. destruct HA as [H1 H2]. split; [auto|]. cbn [snd]. intros t Ht. apply H2. apply antichain_join_beyond in Ht. tauto.
  - destruct handle as [L P0]. simpl. intros t Ht. rewrite app_nil_r in Ht. auto.
Qed.
Lemma lfilter_nonempty (stash : list (T * list prefix)) : flat_map snd (filter (fun e => match snd e with [] => false | _ => true end) stash) = flat_map snd stash.
Proof. induction stash as [|[c [|p ps]] stash IH]; simpl; auto. rewrite IH. auto. Qed.

Lemma lactivate_ok w A s' msgs1 msgs2 F' F2 : linv w A -> delivers contents (lw_in w) msgs2 F2 s' ->
  Forall (fun m => beyond (lw_front w) (fst m) /\ lk_timed m) msgs1 -> sub F' (lw_front w) ->
  exists l' outs A', activate (sd_spine (lw_in w)) msgs1 F' F2 (lw_op w) = Some (l', outs) /\
    linv {| lw_in := s'; lw_front := F'; lw_asked := lw_asked w ++ flat_map snd msgs1; lw_op := l'; lw_out := lw_out w ++ outs |} (A ++ A') /\
    Forall (fun o => beyond (lw_front w ++ map fst (l_stash (lw_op w))) (fst o)) outs /\
    Forall (fun e => beyond (lw_front w ++ map fst (l_stash (lw_op w))) (fst e)) (l_stash l') /\
    Forall (fun e => Forall (fun p => beyond F2 (ltime p)) (snd e)) (l_stash l').
Proof.
  intros HI (q' & Eq & Es' & HM & HF & HQ') Hmsgs Hfront.
  destruct HI as [I1 I2 I3 I4 I5 I6 I7 I8]. set (all := stash_adds msgs1 (l_stash (lw_op w))).
  assert (Hall : Forall (fun e => beyond (lw_front w ++ map fst (l_stash (lw_op w))) (fst e) /\ lentry_ok e) all).
  { apply (stash_adds_forall (fun c p => tle c (ltime p) = true) (fun c => beyond (lw_front w ++ map fst (l_stash (lw_op w))) c)).
    - eapply Forall_impl; [|exact Hmsgs]. cbv beta. intros m [H1 H2]. split; [apply beyond_app; auto|exact H2].
    - rewrite Forall_forall in *. intros e He. split; [apply beyond_app; right; apply beyond_in, in_map, He|apply I6; auto]. }
  assert (Hrel : Forall (fun p => ~ beyond F2 (ltime p)) A) by (eapply Forall_impl; [|exact I4]; cbv beta; intros p Hp Hb; apply Hp, HF, Hb).
  assert (Loop : exists stash' outs A',
    match l_trace (lw_op w) with Some _ => lk_stash ops cops new key_selector output_func (sd_spine (lw_in w)) F2 all | None => Some (all, []) end = Some (stash', outs) /\
    Permutation (nz (flat_map snd all)) (A' ++ nz (flat_map snd stash')) /\ Forall (fun p => ~ beyond F2 (ltime p)) A' /\
    Permutation (flat_map snd outs) (lookups (l_input w) A') /\
    Forall (fun o => beyond (lw_front w ++ map fst (l_stash (lw_op w))) (fst o) /\ Forall (fun u : update => tle (fst o) (snd (fst u)) = true) (snd o)) outs /\
    Forall (fun e => beyond (lw_front w ++ map fst (l_stash (lw_op w))) (fst e) /\ lentry_ok e /\ Forall (fun p => beyond F2 (ltime p)) (snd e)) stash').
  { assert (Hcap : forall c, In c (map fst all) -> beyond (lw_front w ++ map fst (l_stash (lw_op w))) c).
    { intros c Hc. apply in_map_iff in Hc as (e & <- & He). rewrite Forall_forall in Hall. apply (Hall e He). }
    assert (Hent : Forall lentry_ok all) by (eapply Forall_impl; [|exact Hall]; cbv beta; tauto).
    destruct all as [|e0 all'] eqn:Eall.
    - exists [], [], []. split; [destruct (l_trace (lw_op w)); reflexivity|]. simpl. repeat split; auto; constructor.
    - destruct (lprotects_beyond _ _ (fst e0) I7 (Hcap _ (or_introl eq_refl))) as (HL & HP & Eh & Hne & Hsub). rewrite Eh in *.
      destruct I2 as [A1 A2]. assert (HL' : sd_logical (lw_in w) <> []).
      { intros EL. rewrite EL in A1. apply (beyond_nil (T:=T) (fst e0)). apply A1, Hne. }
      destruct I1 as (n & HS). destruct (batches_through_all_alike ops contents laws _ _ _ _ _ _ HS HL') as (bs & Eb & Ha & Hok).
      rewrite <- Eall in *. clear Eall.
      destruct (lk_stash_ok ops contents laws cops new HR key_selector output_func HQ _ bs (conj Eb Hok) F2 (l_input w) all Hent) as (stash' & outs & A' & E & L1 & L2 & L3 & L4 & L5).
      { apply Forall_forall. intros e He. rewrite Forall_forall in Hent. specialize (Hent e He). unfold lentry_ok in Hent. eapply Forall_impl; [|exact Hent]. cbv beta. intros p Hp v.
        apply (alike_beyond _ _ _ Ha). apply A1, Hsub. eapply beyond_mono; [exact Hp|]. apply Hcap, in_map, He. }
      exists stash', outs, A'. split; [exact E|]. split; [exact L1|]. split; [exact L2|]. split; [exact L3|].
      split; [eapply Forall_impl; [|exact L4]; cbv beta; intros o [H1 H2]; auto|]. eapply Forall_impl; [|exact L5]; cbv beta; intros o (H1 & H2 & H3); auto. }
  destruct Loop as (stash' & outs & A' & E & L1 & L2 & L3 & L4 & L5).
  unfold l_activate. fold all. rewrite E. set (st1 := filter (fun e => match snd e with [] => false | _ => true end) stash').
  assert (St1 : Forall (fun e => beyond (lw_front w ++ map fst (l_stash (lw_op w))) (fst e) /\ lentry_ok e /\ Forall (fun p => beyond F2 (ltime p)) (snd e)) st1).
  { apply Forall_forall. intros e He. apply filter_In in He as [He _]. rewrite Forall_forall in L5. apply (L5 e He). }
  eexists _, outs, A'. split; [reflexivity|]. cbn [l_stash l_trace].
  split; [|split; [eapply Forall_impl; [|exact L4]; cbv beta; tauto|split; eapply Forall_impl; [|exact St1| |exact St1]; cbv beta; tauto]].
  subst s'. constructor; cbn [lw_in lw_front lw_asked lw_op lw_out l_stash l_trace sd_spine sd_hist sd_upper sd_logical sd_physical sd_flight sd_front].
  - exact I1.
  - destruct (l_trace (lw_op w)) as [[L P0]|]; [|exact I]. destruct I2 as [A1 A2]. destruct F' as [|f F'], st1 as [|e st1]; try exact I; (split; [intros t Ht; apply A1; apply antichain_join_beyond in Ht; tauto|auto]).
  - unfold l_owed in *. cbn [lw_op l_stash]. unfold st1. rewrite lfilter_nonempty, nz_app. eapply perm_trans; [apply Permutation_app_tail, I3|]. rewrite <- !app_assoc. apply Permutation_app_head.
    eapply perm_trans; [|exact L1]. rewrite <- nz_app. apply nz_perm. apply Permutation_sym. eapply perm_trans; [apply stash_adds_perm|]. apply Permutation_app_comm.
  - apply Forall_app; auto.
  - unfold l_produced, LookupSpec.l_input in *. cbn [lw_out lw_in sd_hist]. rewrite flat_map_app, lookups_app. apply Permutation_app; auto.
  - eapply Forall_impl; [|exact St1]; cbv beta; tauto.
  - destruct (l_trace (lw_op w)) as [[L P0]|].
    + assert (G : sub (F' ++ map fst st1) (antichain_join L (ac_from (F' ++ map fst st1)))).
      { intros t Ht. apply antichain_join_beyond. split; [|apply ac_from_beyond; auto]. simpl in I7. apply I7. apply beyond_app in Ht as [Ht|Ht].
        - apply beyond_app; left; auto.
        - destruct Ht as (c & Hc & Hl). eapply beyond_mono; [exact Hl|]. apply in_map_iff in Hc as (e & <- & He). rewrite Forall_forall in St1. apply (St1 e He). }
      destruct F' as [|f F'], st1 as [|e0 st1]; cbn [lprotects]; auto.
    + cbn [lprotects] in *. apply app_eq_nil in I7 as [E1 E2]. rewrite E1, E2 in *. cbn [app] in *.
      assert (st1 = []) as -> by (destruct St1 as [|x l [Hx _] _]; [auto|destruct (beyond_nil _ Hx)]).
      assert (F' = []) as ->. { destruct F' as [|f F']; [auto|]. destruct (beyond_nil _ (Hfront f (beyond_in (f :: F') f (or_introl eq_refl)))). }
      reflexivity.
  - apply Forall_app. split; [exact I8|]. eapply Forall_impl; [|exact L4]; cbv beta; tauto.
Qed.

Lemma later_acc (us vs : list (K * V * T * R2)) F (p : prefix) : ~ beyond F (ltime p) -> Forall (fun u => beyond F (snd (fst u))) vs ->
  forall v, acc (D:=K*V) us (lkey key_selector p, v) (ltime p) = acc (D:=K*V) (us ++ vs) (lkey key_selector p, v) (ltime p).
Proof.
  intros Hp HV v. rewrite acc_app. rewrite <- (dplus_0_r (acc us (lkey key_selector p, v) (ltime p))) at 1. f_equal. symmetry. unfold acc.
  assert (E : filter (fun u => eqb (fst (fst u)) (lkey key_selector p, v) && tle (snd (fst u)) (ltime p)) vs = []); [|rewrite E; auto].
  induction HV as [|u vs Hu _ IH]; auto. cbn [filter]. destruct (tle (snd (fst u)) (ltime p)) eqn:E; [exfalso; apply Hp; eapply beyond_mono; eauto|]. rewrite andb_false_r. auto.
Qed.
Lemma lstep_inv w w' A : linv w A -> lstep w w' -> exists A', linv w' A'.
Proof.
  intros HI HS. destruct HS.
  - exists A. destruct HI as [I1 I2 I3 I4 I5 I6 I7 I8]. cbn [lw_in lw_front lw_asked lw_op lw_out] in *. pose proof (side_env_inv _ _ _ _ _ _ H I1) as HI'.
    assert (G : allowed (l_trace l) (sd_logical s') (sd_physical s') /\ sd_front s' = sd_front s /\ exists bs, sd_hist s' = sd_hist s ++ bs /\ Forall (times_beyond contents (sd_front s)) bs).
    { destruct H; cbn [sd_logical sd_physical sd_front sd_hist] in *.
      - split; [auto|]. split; [auto|]. exists [b]. split; [auto|]. constructor; [auto|constructor].
      - split; [auto|]. split; [auto|]. exists [b]. split; [auto|]. constructor; [|constructor]. unfold times_beyond. rewrite H2. constructor.
      - split; [auto|]. split; [auto|]. exists []. rewrite app_nil_r. auto.
      - split; [auto|]. split; [auto|]. exists []. rewrite app_nil_r. auto.
      - split; [auto|]. split; [auto|]. exists []. rewrite app_nil_r. auto. }
    destruct G as (G1 & G2 & bs & G3 & G4). constructor; cbn [lw_in lw_front lw_asked lw_op lw_out]; auto.
    + rewrite G2. auto.
    + eapply perm_trans; [exact I5|]. unfold LookupSpec.l_input. cbn [lw_in]. rewrite G3, flat_map_app. apply lookups_congr. eapply Forall_impl; [|exact I4]. cbv beta. intros p Hp.
      apply (later_acc _ _ (sd_front s) p Hp).
      apply Forall_forall. intros u Hu. apply in_flat_map in Hu as (b & Hb & Hu). rewrite Forall_forall in G4. specialize (G4 b Hb). unfold times_beyond in G4. rewrite Forall_forall in G4. auto.
  - exists A. destruct HI as [I1 I2 I3 I4 I5 I6 I7 I8]. cbn [lw_in lw_front lw_asked lw_op lw_out l_stash l_trace] in *. constructor; cbn [lw_in lw_front lw_asked lw_op lw_out l_stash l_trace]; auto.
    + eapply perm_trans; [exact I3|]. apply Permutation_app_head, nz_perm. unfold l_owed. cbn [lw_op l_stash]. apply Permutation_flat_map. auto.
    + eapply Permutation_Forall; eauto.
    + unfold lprotects in *. destruct tr as [[HL HP]|].
      * intros t Ht. apply I7. destruct Ht as (c & Hc & Hl). exists c. split; [|auto]. apply in_app_iff in Hc. apply in_app_iff. destruct Hc as [He|He]; auto. right. eapply Permutation_in; [|exact He]. apply Permutation_map, Permutation_sym, H.
      * apply app_eq_nil in I7 as [-> I7]. apply map_eq_nil in I7. subst. apply Permutation_nil in H. subst. auto.
  - destruct (lactivate_ok _ _ _ _ _ _ _ HI H H0 H1) as (h1 & outs1 & A' & E & HI' & _). cbn [lw_in lw_front lw_asked lw_op lw_out] in *. rewrite E in H2. inversion H2; subst. eauto.
Qed.
Lemma lreaches_inv handle w : lreaches handle w -> exists A, linv w A.
Proof.
  induction 1 as [w H|w w' _ (A & IH) H]; [exists []; eapply lstarts_inv; eauto|eapply lstep_inv; eauto].
Qed.
End World.
